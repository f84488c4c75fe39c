(** Proofs about grid enumeration. *)
From Coq Require Import List Arith ZArith QArith Qcanon Lia Sorted Permutation.
From Verif Require Import Base BaseRadix BaseQc M_Numpy M_Grid S_Grid.
Import ListNotations.
Local Open Scope nat_scope.

Lemma fold_right_mul_prodn l : fold_right Nat.mul 1 l = prodn l.
Proof. induction l; cbn; auto. Qed.

Lemma stride_prodn res k : stride res k = prodn (firstn k res).
Proof. apply fold_right_mul_prodn. Qed.

Lemma axis_position_digits res id k d :
  k < length res -> nth k (digits res id) d = axis_position res id k.
Proof. intros. rewrite digits_rec_nth by auto. unfold axis_position. now rewrite stride_prodn. Qed.

Lemma fold_left_mul l a : fold_left Nat.mul l a = a * prodn l.
Proof. revert a; induction l; intros; cbn; [lia|]. rewrite IHl. nia. Qed.

Lemma grid_size_prodn g : grid_size g = prodn (g_res g).
Proof. unfold grid_size. rewrite fold_left_mul. lia. Qed.

(** SetUp *)
Lemma setup_axes_spec dim i bounds resolutions rs es :
  setup_axes dim i bounds resolutions = Some (rs, es) ->
  rs = map Z.to_nat resolutions /\ length es = length rs /\
  Forall (fun r => 2 <= r) rs /\
  map (@length Qc) es = rs /\
  forall k, k < length rs ->
    nth k es [] = linspace (nth (i + k) bounds 0%Qc) (nth (i + k + dim) bounds 0%Qc) (nth k rs 0).
Proof.
  revert i rs es; induction resolutions as [|r rest IH]; cbn; intros i rs es H.
  - injection H as <- <-. cbn. repeat split; auto. intros; lia.
  - destruct (Z.ltb_spec r 2); [discriminate|].
    destruct (setup_axes dim (S i) bounds rest) as [[rs' es']|] eqn:E; [|discriminate].
    injection H as <- <-. apply IH in E. destruct E as (E1 & E2 & E3 & E4 & E5).
    cbn. repeat split.
    + now rewrite E1.
    + now rewrite E2.
    + constructor; auto. lia.
    + rewrite E4. f_equal. unfold linspace. now rewrite map_length, seq_length.
    + intros [|k] Hk.
      * now rewrite Nat.add_0_r.
      * replace (i + S k) with (S i + k) by lia. apply E5. lia.
Qed.

Lemma grid_setup_spec bounds resolutions g :
  grid_setup bounds resolutions = Some g ->
  g_res g = map Z.to_nat resolutions /\ length (g_entries g) = length (g_res g) /\
  Forall (fun r => 2 <= r) (g_res g) /\
  map (@length Qc) (g_entries g) = g_res g /\
  forall k, k < length (g_res g) ->
    nth k (g_entries g) [] =
    linspace (nth k bounds 0%Qc) (nth (k + length resolutions) bounds 0%Qc) (nth k (g_res g) 0).
Proof.
  unfold grid_setup.
  destruct (setup_axes _ 0 bounds resolutions) as [[rs es]|] eqn:E; [|discriminate].
  intros H; injection H as <-. apply setup_axes_spec in E. cbn. exact E.
Qed.

Lemma grid_setup_error bounds resolutions :
  grid_setup bounds resolutions = None <-> Exists (fun r => (r < 2)%Z) resolutions.
Proof.
  unfold grid_setup. generalize (length resolutions) as dim, 0 as i. intros dim.
  assert (G : forall i, setup_axes dim i bounds resolutions = None <-> Exists (fun r => (r < 2)%Z) resolutions).
  { induction resolutions as [|r rest IH]; intros i; cbn.
    - split; [discriminate|]. intros H; inversion H.
    - rewrite Exists_cons, <- (IH (S i)). destruct (Z.ltb_spec r 2).
      + split; auto.
      + destruct (setup_axes dim (S i) bounds rest) as [[rs es]|].
        * split; [discriminate|]. intros [?|?]; [lia|discriminate].
        * split; auto. }
  intros i. rewrite <- (G i). destruct (setup_axes dim i bounds resolutions) as [[rs es]|]; split; auto; discriminate.
Qed.

Lemma id_to_point_nth res entries id k :
  length entries = length res -> k < length res ->
  nth k (id_to_point res entries id) 0%Qc =
  nth (nth k (digits res id) 0) (nth k entries []) 0%Qc.
Proof.
  revert entries id k; induction res as [|r res IH]; intros [|e entries] id [|k] Hl Hk;
  cbn in *; try lia; auto. apply IH; lia.
Qed.

Lemma length_id_to_point res entries id :
  length entries = length res -> length (id_to_point res entries id) = length res.
Proof.
  revert entries id; induction res as [|r res IH]; intros [|e entries] id H; cbn in *; try lia.
  f_equal. apply IH. lia.
Qed.

Lemma linspace_nth lower upper res j :
  j < res ->
  nth j (linspace lower upper res) 0%Qc = (lower + (upper - lower) / inj (res - 1) * inj j)%Qc.
Proof.
  intros H. unfold linspace.
  rewrite (nth_indep _ 0%Qc ((fun j => lower + (upper - lower) / inj (res - 1) * inj j) 0%nat)%Qc)
    by (rewrite map_length, seq_length; lia).
  rewrite (map_nth (fun j => (lower + (upper - lower) / inj (res - 1) * inj j)%Qc)).
  rewrite seq_nth by lia. reflexivity.
Qed.

Lemma Forall_ge2_pos rs : Forall (fun r => 2 <= r) rs -> Forall (fun r => 0 < r) rs.
Proof. apply Forall_impl. intros; lia. Qed.

Lemma grid_point_coordinate bounds resolutions g id k :
  grid_setup bounds resolutions = Some g -> k < length resolutions ->
  nth k (id_to_grid_point g id) 0%Qc =
  sample_coordinate (fun k => nth k bounds 0%Qc)
    (fun k => nth (k + length resolutions) bounds 0%Qc) (map Z.to_nat resolutions) id k.
Proof.
  intros H Hk. apply grid_setup_spec in H. destruct H as (E1 & E2 & E3 & E4 & E5).
  assert (Hl : length (g_res g) = length resolutions) by (rewrite E1, map_length; auto).
  unfold id_to_grid_point. rewrite id_to_point_nth by lia.
  rewrite E5 by lia.
  assert (Hv : nth k (digits (g_res g) id) 0 < nth k (g_res g) 0).
  { pose proof (digits_valid (g_res g) id (Forall_ge2_pos _ E3)) as V.
    clear - V Hk Hl. rewrite <- Hl in Hk. clear Hl.
    revert k Hk. induction V; intros [|k] Hk; cbn in *; try lia. apply IHV. lia. }
  rewrite linspace_nth by auto. unfold sample_coordinate.
  rewrite axis_position_digits by lia. now rewrite E1.
Qed.

(** Fill *)
Lemma nth_concat_repeat {A} (l : list A) t p d :
  p < t * length l -> nth p (concat (repeat l t)) d = nth (p mod length l) l d.
Proof.
  revert p; induction t; cbn [repeat concat Nat.mul]; intros p H; [lia|].
  destruct (Nat.lt_ge_cases p (length l)).
  - rewrite app_nth1 by auto. now rewrite Nat.mod_small.
  - rewrite app_nth2 by lia. rewrite IHt by lia. f_equal.
    replace p with ((p - length l) + 1 * length l) at 2 by lia.
    rewrite Nat.mod_add by lia. reflexivity.
Qed.

Lemma length_flat_map_repeat {A} (l : list A) rep :
  length (flat_map (fun e => repeat e rep) l) = length l * rep.
Proof. induction l; cbn; auto. rewrite app_length, repeat_length, IHl. lia. Qed.

Lemma nth_flat_map_repeat {A} (l : list A) rep p d :
  p < length l * rep -> nth p (flat_map (fun e => repeat e rep) l) d = nth (p / rep) l d.
Proof.
  revert p; induction l; cbn [length flat_map Nat.mul]; intros p H; [lia|].
  assert (0 < rep) by nia.
  destruct (Nat.lt_ge_cases p rep).
  - rewrite app_nth1 by (rewrite repeat_length; auto).
    rewrite Nat.div_small by auto. cbn.
    rewrite (nth_indep _ d a) by (rewrite repeat_length; auto). apply nth_repeat.
  - rewrite app_nth2 by (rewrite repeat_length; lia). rewrite repeat_length.
    rewrite IHl by lia.
    replace p with ((p - rep) + 1 * rep) at 2 by lia.
    rewrite Nat.div_add by lia. rewrite Nat.add_1_r. reflexivity.
Qed.

Lemma length_concat_repeat {A} (l : list A) t : length (concat (repeat l t)) = t * length l.
Proof. induction t; cbn; auto. rewrite app_length, IHt. reflexivity. Qed.

Lemma nstore_other ws m a :
  (forall w, In w ws -> fst w <> a) -> fold_left nstore ws m a = m a.
Proof.
  revert m; induction ws as [|w ws IH]; intros m H; cbn; auto.
  rewrite IH by (intros; apply H; now right). unfold nstore.
  destruct (Nat.eqb_spec a (fst w)); auto. exfalso. apply (H w); auto. now left.
Qed.

Lemma nstore_column dim i (vals : list Qc) m a :
  0 < dim -> i < dim ->
  fold_left nstore (combine (map (fun p => i + p * dim) (seq 0 (length vals))) vals) m a =
  if Nat.eqb (a mod dim) i && (a / dim <? length vals) then nth (a / dim) vals 0%Qc else m a.
Proof.
  intros Hd Hi.
  assert (G : forall s m, fold_left nstore (combine (map (fun p => i + p * dim) (seq s (length vals))) vals) m a =
    if Nat.eqb (a mod dim) i && (s <=? a / dim) && (a / dim <? s + length vals) then nth (a / dim - s) vals 0%Qc else m a).
  { clear m. induction vals as [|v vals IH]; intros s m; cbn [length seq map combine fold_left].
    - replace (a / dim <? s + 0) with (negb (s <=? a / dim)).
      2:{ destruct (Nat.leb_spec s (a / dim)), (Nat.ltb_spec (a / dim) (s + 0)); cbn; auto; lia. }
      destruct (a mod dim =? i), (s <=? a / dim); reflexivity.
    - rewrite IH. unfold nstore; cbn [fst snd].
      pose proof (Nat.div_mod a dim ltac:(lia)) as Hdm.
      pose proof (Nat.mod_upper_bound a dim ltac:(lia)) as Hmb.
      destruct (Nat.eqb_spec (a mod dim) i) as [Em|Em]; cbn [andb].
      + destruct (Nat.eqb_spec a (i + s * dim)) as [Ea|Ea].
        * assert (a / dim = s) as Es by nia. rewrite Es, Nat.sub_diag.
          destruct (Nat.leb_spec (S s) s); [lia|]. cbn [andb].
          destruct (Nat.leb_spec s s); [|lia].
          destruct (Nat.ltb_spec s (s + S (length vals))); [|lia]. reflexivity.
        * assert (a / dim <> s) by nia.
          destruct (Nat.leb_spec (S s) (a / dim)), (Nat.leb_spec s (a / dim)); try lia; cbn [andb]; auto.
          replace (S s + length vals) with (s + S (length vals)) by lia.
          destruct (Nat.ltb_spec (a / dim) (s + S (length vals))); auto.
          replace (a / dim - s) with (S (a / dim - S s)) by lia. reflexivity.
      + destruct (Nat.eqb_spec a (i + s * dim)) as [Ea|Ea]; auto.
        exfalso. apply Em. rewrite Ea. rewrite Nat.mod_add by lia. apply Nat.mod_small; lia. }
  rewrite (G 0 m), Nat.sub_0_r. cbn. rewrite Bool.andb_true_r. reflexivity.
Qed.

Lemma fill_loop_spec dim entries i rep m a :
  i + length entries <= dim -> 0 < rep ->
  Forall (fun e => 0 < length e) entries ->
  let len := rep * prodn (map (@length Qc) entries) in
  fold_left nstore (fill_loop dim entries i (prodn (map (@length Qc) entries)) rep) m a =
  if (i <=? a mod dim) && (a mod dim <? i + length entries) && (a / dim <? len)
  then nth (nth (a mod dim - i) (digits (map (@length Qc) entries) (a / dim / rep)) 0)
           (nth (a mod dim - i) entries []) 0%Qc
  else m a.
Proof.
  revert i rep m; induction entries as [|e rest IH]; intros i rep m Hd Hrep HF len;
  cbn [fill_loop map prodn length] in *.
  - cbn [fold_left]. rewrite Nat.add_0_r.
    destruct (Nat.leb_spec i (a mod dim)), (Nat.ltb_spec (a mod dim) i); try lia; reflexivity.
  - apply Forall_cons_iff in HF. destruct HF as [He HF].
    set (P := prodn (map (@length Qc) rest)) in *.
    replace (length e * P / length e) with P
      by (rewrite Nat.mul_comm, Nat.div_mul; lia).
    rewrite fold_left_app, IH by (auto; try lia; nia).
    set (vals := concat (repeat (flat_map (fun x => repeat x rep) e) P)).
    assert (Hlv : length vals = P * (length e * rep)).
    { unfold vals. now rewrite length_concat_repeat, length_flat_map_repeat. }
    rewrite nstore_column by lia. rewrite Hlv.
    subst len. replace (rep * (length e * P)) with (P * (length e * rep)) by nia.
    replace (rep * length e * P) with (P * (length e * rep)) by nia.
    destruct (Nat.eqb_spec (a mod dim) i) as [Em|Em].
    + rewrite Em. replace (S i <=? i) with false by (symmetry; apply Nat.leb_gt; lia).
      rewrite Nat.leb_refl. replace (i <? i + S (length rest)) with true by (symmetry; apply Nat.ltb_lt; lia).
      cbn [andb]. rewrite Nat.sub_diag. cbn [nth digits].
      destruct (Nat.ltb_spec (a / dim) (P * (length e * rep))) as [Hp|Hp]; auto.
      unfold vals. rewrite nth_concat_repeat by (rewrite length_flat_map_repeat; lia).
      rewrite length_flat_map_repeat.
      assert (0 < length e * rep) by nia.
      rewrite nth_flat_map_repeat by (apply Nat.mod_upper_bound; lia).
      f_equal. rewrite (Nat.mul_comm (length e)).
      rewrite Nat.mod_mul_r by lia.
      rewrite Nat.mul_comm, Nat.add_comm, Nat.div_add_l by lia.
      rewrite (Nat.div_small (_ mod _)) by (apply Nat.mod_upper_bound; lia). lia.
    + cbn [andb].
      destruct (Nat.leb_spec (S i) (a mod dim)), (Nat.leb_spec i (a mod dim)); try lia; cbn [andb]; auto.
      replace (S i + length rest) with (i + S (length rest)) by lia.
      destruct (Nat.ltb_spec (a mod dim) (i + S (length rest))); cbn [andb]; auto.
      destruct (Nat.ltb_spec (a / dim) (P * (length e * rep))); auto.
      replace (a mod dim - i) with (S (a mod dim - S i)) by lia.
      cbn [nth digits]. rewrite (Nat.div_div (a / dim)) by lia. reflexivity.
Qed.

Lemma grid_fill_spec bounds resolutions g m a :
  grid_setup bounds resolutions = Some g -> resolutions <> [] ->
  grid_fill g m a =
  if a <? grid_size g * length resolutions
  then nth (a mod length resolutions) (id_to_grid_point g (a / length resolutions)) 0%Qc
  else m a.
Proof.
  intros H Hne. apply grid_setup_spec in H. destruct H as (E1 & E2 & E3 & E4 & E5).
  assert (Hl : length (g_res g) = length resolutions) by (rewrite E1, map_length; auto).
  unfold grid_fill. rewrite grid_size_prodn, <- E4, E2, Hl, E4.
  assert (0 < length resolutions) by (destruct resolutions; cbn; [congruence|lia]).
  set (dim := length resolutions) in *.
  rewrite <- E4 at 1. rewrite fill_loop_spec.
  - rewrite E4, Nat.mul_1_l, Nat.sub_0_r, Nat.div_1_r, E2, Hl.
    cbn [Nat.leb andb Nat.add].
    pose proof (Nat.mod_upper_bound a dim ltac:(lia)).
    replace (a mod dim <? dim) with true by (symmetry; apply Nat.ltb_lt; lia).
    cbn [andb].
    replace (a <? prodn (g_res g) * dim) with (a / dim <? prodn (g_res g)).
    + destruct (a / dim <? prodn (g_res g)); auto.
      unfold id_to_grid_point. rewrite id_to_point_nth by lia. reflexivity.
    + pose proof (Nat.div_mod a dim ltac:(lia)).
      destruct (Nat.ltb_spec (a / dim) (prodn (g_res g))), (Nat.ltb_spec a (prodn (g_res g) * dim)); auto; nia.
  - lia.
  - lia.
  - apply Forall_forall. intros e He.
    assert (In (length e) (g_res g)) by (rewrite <- E4; now apply in_map).
    rewrite Forall_forall in E3. apply E3 in H0. lia.
Qed.

(** Bounds of the samples *)
Lemma linspace_first lower upper res :
  2 <= res -> nth 0 (linspace lower upper res) 0%Qc = lower.
Proof. intros. rewrite linspace_nth by lia. rewrite inj_0. ring. Qed.

Lemma linspace_last lower upper res :
  2 <= res -> nth (res - 1) (linspace lower upper res) 0%Qc = upper.
Proof.
  intros. rewrite linspace_nth by lia. field. apply inj_neq0. lia.
Qed.

Lemma linspace_mono lower upper res i j :
  2 <= res -> (lower <= upper)%Qc -> i <= j < res ->
  (nth i (linspace lower upper res) 0 <= nth j (linspace lower upper res) 0)%Qc.
Proof.
  intros Hr Hb Hij. rewrite !linspace_nth by lia.
  assert (0 <= (upper - lower) / inj (res - 1))%Qc.
  { apply Qc_div_nonneg; [qlra|apply inj_nonneg]. }
  assert (inj i <= inj j)%Qc by (apply inj_le; lia).
  generalize dependent ((upper - lower) / inj (res - 1))%Qc. intros s Hs. clear Hb. qnra.
Qed.

(** cartesian_product *)
Definition select {A} (d : A) (arrays : list (list A)) (ds : list nat) : list A :=
  map (fun p => nth (snd p) (fst p) d) (combine arrays ds).

Lemma cp_block_spec {A} (d : A) arrays :
  cp_block arrays = map (select d arrays) (c_indices (map (@length A) arrays)).
Proof.
  induction arrays as [|a rest IH]; cbn; auto.
  rewrite map_flat_map. rewrite <- (map_id a) at 1.
  replace (map (fun x => x) a) with (map (fun i => nth i a d) (seq 0 (length a))).
  - rewrite flat_map_map. apply flat_map_ext. intros i.
    rewrite IH, !map_map. apply map_ext. intros ds. reflexivity.
  - clear. induction a; cbn; auto. f_equal. rewrite <- seq_shift, map_map. exact IHa.
Qed.

Lemma combine_rev {A B} (l : list A) (m : list B) :
  length l = length m -> combine (rev l) (rev m) = rev (combine l m).
Proof.
  revert m; induction l as [|a l IH]; intros [|b m] H; cbn in *; try lia; auto.
  rewrite <- IH by lia.
  assert (G : forall (l1 : list A) (m1 : list B) x y, length l1 = length m1 ->
            combine (l1 ++ [x]) (m1 ++ [y]) = combine l1 m1 ++ [(x, y)]).
  { induction l1; intros [|? m1] x y Hl; cbn in *; try lia; auto. f_equal. apply IHl1. lia. }
  apply G. rewrite !rev_length. lia.
Qed.

Lemma cartesian_product_spec {A} (d : A) arrays :
  arrays <> [] ->
  cartesian_product arrays true =
  Some (map (select d arrays) (f_indices (map (@length A) arrays))).
Proof.
  intros Hne. destruct arrays as [|a rest] eqn:E; [congruence|]. rewrite <- E in *.
  unfold cartesian_product. rewrite E at 1. f_equal.
  rewrite (cp_block_spec d), map_map, <- c_indices_rev, map_map, map_rev.
  apply map_ext_in. intros ds Hds. apply in_c_indices in Hds.
  apply valid_length in Hds. rewrite rev_length, map_length in Hds.
  unfold select. rewrite <- map_rev. f_equal.
  rewrite <- (rev_involutive ds) at 1. rewrite combine_rev by (rewrite rev_length; lia).
  apply rev_involutive.
Qed.

(** IdsOnHyperPlane *)
Lemma local_to_global_nohit res axis plane i comb id gid :
  (forall k, k < length res -> i + k <> axis) ->
  Forall (fun r => 0 < r) res ->
  local_to_global res axis plane i comb id gid = gid + comb * undigits res (digits res id).
Proof.
  revert i comb id gid; induction res as [|r rs IH]; intros i comb id gid Hn HF; cbn.
  - lia.
  - apply Forall_cons_iff in HF. destruct HF as [Hr HF].
    destruct (Nat.eqb_spec i axis) as [E|E].
    + exfalso. apply (Hn 0); cbn; lia.
    + rewrite IH; auto.
      * assert (Ed : (id - id mod r) / r = id / r).
        { pose proof (Nat.div_mod id r ltac:(lia)).
          replace (id - id mod r) with (id / r * r) by lia. apply Nat.div_mul. lia. }
        rewrite Ed. nia.
      * intros k Hk. specialize (Hn (S k)). cbn in Hn. lia.
Qed.

Lemma undigits_digits_mod rs n :
  Forall (fun r => 0 < r) rs -> undigits rs (digits rs n) = n mod prodn rs.
Proof.
  intros HF. revert n. induction HF; intros n; cbn.
  - reflexivity.
  - rewrite IHHF. pose proof (prodn_pos _ HF).
    rewrite Nat.mod_mul_r by lia. lia.
Qed.

Lemma local_to_global_closed a r b axis plane id :
  length a = axis -> Forall (fun r => 0 < r) (a ++ r :: b) ->
  local_to_global (a ++ r :: b) axis plane 0 1 id 0 =
  id mod prodn a + prodn a * (plane + r * ((id / prodn a) mod prodn b)).
Proof.
  intros Ha HF. apply Forall_app in HF. destruct HF as [HFa HFb].
  apply Forall_cons_iff in HFb. destruct HFb as [Hr HFb].
  assert (G : forall i comb id gid, i + length a = axis ->
    local_to_global (a ++ r :: b) axis plane i comb id gid =
    gid + comb * (undigits a (digits a id) + prodn a * (plane + r * undigits b (digits b (id / prodn a))))).
  { clear Ha id. induction HFa as [|x a Hx HFa IH]; intros i comb id gid Hi.
    - cbn [app local_to_global length digits undigits prodn] in *.
      replace (Nat.eqb i axis) with true by (symmetry; apply Nat.eqb_eq; lia).
      rewrite local_to_global_nohit; auto.
      + rewrite Nat.div_1_r. nia.
      + intros k _. lia.
    - cbn [app local_to_global length digits undigits prodn] in *.
      replace (Nat.eqb i axis) with false by (symmetry; apply Nat.eqb_neq; lia).
      rewrite IH by lia.
      assert (Ed : (id - id mod x) / x = id / x).
      { pose proof (Nat.div_mod id x ltac:(lia)).
        replace (id - id mod x) with (id / x * x) by lia. apply Nat.div_mul. lia. }
      pose proof (prodn_pos _ HFa).
      rewrite Ed, Nat.div_div by lia. nia. }
  rewrite G by auto. rewrite !undigits_digits_mod by auto. lia.
Qed.

Lemma n_on_plane_closed a r b axis :
  length a = axis -> n_on_plane (a ++ r :: b) axis 0 = prodn a * prodn b.
Proof.
  intros Ha.
  assert (N : forall b i, axis < i -> n_on_plane b axis i = prodn b).
  { induction b0; intros i Hi; cbn; auto.
    replace (Nat.eqb i axis) with false by (symmetry; apply Nat.eqb_neq; lia).
    rewrite IHb0; lia. }
  assert (G : forall i, i + length a = axis -> n_on_plane (a ++ r :: b) axis i = prodn a * prodn b).
  { clear Ha. induction a; intros i Hi; cbn in *.
    - replace (Nat.eqb i axis) with true by (symmetry; apply Nat.eqb_eq; lia).
      rewrite N; lia.
    - replace (Nat.eqb i axis) with false by (symmetry; apply Nat.eqb_neq; lia).
      rewrite IHa by lia. lia. }
  apply G. auto.
Qed.

Lemma StronglySorted_map_seq (f : nat -> nat) s n :
  (forall i j, s <= i -> i < j -> j < s + n -> f i < f j) ->
  StronglySorted lt (map f (seq s n)).
Proof.
  revert s; induction n; intros s H; cbn; constructor.
  - apply IHn. intros; apply H; lia.
  - apply Forall_forall. intros x Hx. apply in_map_iff in Hx.
    destruct Hx as (j & <- & Hj). apply in_seq in Hj. apply H; lia.
Qed.

Lemma ids_on_plane_exact res axis plane :
  Forall (fun r => 0 < r) res -> axis < length res -> plane < nth axis res 0 ->
  is_plane res axis plane (ids_on_hyper_plane res axis plane).
Proof.
  intros HF Hax Hpl.
  assert (Es : res = firstn axis res ++ nth axis res 0 :: skipn (S axis) res).
  { clear - Hax. revert axis Hax. induction res; intros [|axis] H; cbn in *; try lia; auto.
    f_equal. apply IHres. lia. }
  set (a := firstn axis res) in *. set (r := nth axis res 0) in *.
  set (b := skipn (S axis) res) in *.
  assert (Ha : length a = axis) by (unfold a; rewrite firstn_length; lia).
  assert (HF2 := HF). rewrite Es in HF2. pose proof HF2 as HF3.
  apply Forall_app in HF2. destruct HF2 as [HFa HFb].
  apply Forall_cons_iff in HFb. destruct HFb as [Hr HFb].
  pose proof (prodn_pos _ HFa) as HA. pose proof (prodn_pos _ HFb) as HB.
  set (A := prodn a) in *. set (B := prodn b) in *.
  assert (Eids : ids_on_hyper_plane res axis plane =
     map (fun i => i mod A + A * (plane + r * (i / A))) (seq 0 (A * B))).
  { unfold ids_on_hyper_plane. rewrite Es, n_on_plane_closed by auto. fold A B.
    apply map_ext_in. intros i Hi. apply in_seq in Hi.
    rewrite local_to_global_closed by auto. fold A B.
    assert (i / A < B) by (apply Nat.div_lt_upper_bound; lia).
    now rewrite (Nat.mod_small (i / A)). }
  split.
  - rewrite Eids. apply StronglySorted_map_seq. intros i j _ Hij Hj.
    pose proof (Nat.div_mod i A ltac:(lia)). pose proof (Nat.div_mod j A ltac:(lia)).
    pose proof (Nat.mod_upper_bound i A ltac:(lia)). pose proof (Nat.mod_upper_bound j A ltac:(lia)).
    assert (i / A <= j / A) by (apply Nat.div_le_mono; lia).
    destruct (Nat.eq_dec (i / A) (j / A)); nia.
  - intros g. rewrite Eids, in_map_iff. unfold axis_position. rewrite stride_prodn.
    fold a. fold A. fold r. rewrite fold_right_mul_prodn.
    assert (Ep : prodn res = A * (r * B)) by (rewrite Es, prodn_app; reflexivity).
    rewrite Ep. split.
    + intros (i & <- & Hi). apply in_seq in Hi.
      pose proof (Nat.mod_upper_bound i A ltac:(lia)).
      assert (i / A < B) by (apply Nat.div_lt_upper_bound; lia).
      split.
      * assert (plane + r * (i / A) < r * B) by nia. nia.
      * rewrite (Nat.mul_comm A), Nat.div_add by lia.
        rewrite (Nat.div_small (i mod A)) by lia. cbn [Nat.add].
        rewrite (Nat.mul_comm r), Nat.mod_add by lia. apply Nat.mod_small. lia.
    + intros [Hg Ep2]. exists (g mod A + A * (g / A / r)).
      pose proof (Nat.div_mod g A ltac:(lia)) as D1.
      pose proof (Nat.div_mod (g / A) r ltac:(lia)) as D2.
      pose proof (Nat.mod_upper_bound g A ltac:(lia)) as M1.
      assert (g / A < r * B) by (apply Nat.div_lt_upper_bound; lia).
      assert (g / A / r < B) by (apply Nat.div_lt_upper_bound; lia).
      split.
      * rewrite (Nat.mul_comm A (g / A / r)).
        rewrite Nat.mod_add, Nat.div_add by lia.
        rewrite (Nat.mod_small (g mod A)), (Nat.div_small (g mod A)) by lia. cbn [Nat.add].
        rewrite Ep2 in D2. nia.
      * apply in_seq. nia.
Qed.

(** MultiIndex *)
Lemma flat_id_undigits res idx :
  length idx = length res -> flat_id res idx = undigits res idx.
Proof.
  intros H. unfold flat_id.
  assert (G : forall c, fold_right Nat.add 0 (map (fun k => nth k idx 0 * (c * prodn (firstn k res))) (seq 0 (length res))) = c * undigits res idx).
  { revert idx H; induction res as [|r res IH]; intros [|i idx] H c; cbn [length] in *; try lia.
    - cbn. lia.
    - cbn [seq map fold_right undigits nth firstn prodn].
      rewrite <- seq_shift, map_map. cbn [nth firstn prodn].
      replace (map (fun x => nth x idx 0 * (c * (r * prodn (firstn x res)))) (seq 0 (length res)))
        with (map (fun x => nth x idx 0 * ((c * r) * prodn (firstn x res))) (seq 0 (length res)))
        by (apply map_ext; intros; nia).
      rewrite IH by lia. nia. }
  rewrite <- (Nat.mul_1_l (undigits res idx)), <- G. f_equal. apply map_ext.
  intros k. rewrite stride_prodn. lia.
Qed.

(** Positions selected per axis (the specification of one subscript). *)
Lemma resolve_length sh ix pos : resolve sh ix = Some pos -> length pos = length sh.
Proof.
  revert ix pos; induction sh as [|n sh IH]; intros [|i ix] pos H; cbn in H.
  - now injection H as <-.
  - discriminate.
  - destruct (resolve sh []) eqn:E; [|discriminate]. injection H as <-. cbn. f_equal. eauto.
  - destruct (index_positions n i); [|discriminate].
    destruct (resolve sh ix) eqn:E; [|discriminate]. injection H as <-. cbn. f_equal. eauto.
Qed.

Lemma index_positions_lt len i p x :
  index_positions len i = Some p -> In x p -> x < len.
Proof.
  destruct i as [z|a b c]; cbn.
  - set (z' := if (z <? 0)%Z then _ else _).
    destruct ((0 <=? z')%Z && (z' <? Z.of_nat len)%Z)%bool eqn:E; [|discriminate].
    intros H Hx. injection H as <-. destruct Hx as [<-|[]]. lia.
  - unfold slice_positions.
    set (st := match c with Some s => s | None => 1%Z end).
    destruct (Z.eqb_spec st 0); [discriminate|].
    set (lower := if (st <? 0)%Z then _ else _). set (upper := if (st <? 0)%Z then _ else Z.of_nat len).
    set (bb := match a with Some x => _ | None => _ end).
    set (ee := match b with Some x => _ | None => _ end).
    set (cnt := if (st <? 0)%Z then _ else _).
    intros H Hx. injection H as <-. apply in_map_iff in Hx.
    destruct Hx as (k & <- & Hk). apply in_seq in Hk.
    assert (Hb : (lower <= bb <= upper)%Z).
    { unfold bb, lower, upper. destruct a; destruct (Z.ltb_spec st 0); lia. }
    assert (He : (lower <= ee <= upper)%Z).
    { unfold ee, lower, upper. destruct b; destruct (Z.ltb_spec st 0); lia. }
    assert (Hcnt : (0 < cnt)%Z) by lia.
    assert (Hk2 : (Z.of_nat k < cnt)%Z) by lia.
    unfold cnt in *. unfold lower, upper in *. clearbody bb ee st. clear lower upper cnt.
    destruct (Z.ltb_spec st 0).
    + pose proof (Z.mul_div_le (bb - ee - st - 1) (- st) ltac:(lia)).
      assert (Z.of_nat k * (- st) <= (((bb - ee - st - 1) / - st) - 1) * (- st))%Z by (apply Z.mul_le_mono_nonneg_r; lia).
      lia.
    + pose proof (Z.mul_div_le (ee - bb + st - 1) st ltac:(lia)).
      assert (Z.of_nat k * st <= (((ee - bb + st - 1) / st) - 1) * st)%Z by (apply Z.mul_le_mono_nonneg_r; lia).
      nia.
Qed.

Lemma resolve_valid sh ix pos :
  resolve sh ix = Some pos -> Forall2 (fun n p => forall x, In x p -> x < n) sh pos.
Proof.
  revert ix pos; induction sh as [|n sh IH]; intros [|i ix] pos H; cbn in H.
  - injection H as <-. constructor.
  - discriminate.
  - destruct (resolve sh []) eqn:E; [|discriminate]. injection H as <-. constructor; eauto.
    intros x Hx. apply in_seq in Hx. lia.
  - destruct (index_positions n i) eqn:Ep; [|discriminate].
    destruct (resolve sh ix) eqn:E; [|discriminate]. injection H as <-. constructor; eauto.
    intros x Hx. eapply index_positions_lt; eauto.
Qed.

Lemma map_nth_seq {A} (l : list A) d : map (fun i => nth i l d) (seq 0 (length l)) = l.
Proof.
  induction l; cbn; auto. f_equal. rewrite <- seq_shift, map_map. exact IHl.
Qed.

(** Integer subscripts select exactly one position. *)
Definition kept_ok (kept : list bool) (pos : list (list nat)) : Prop :=
  Forall2 (fun (k : bool) p => k = false -> length p = 1) kept pos.

Lemma resolve_kept_ok sh ix pos : resolve sh ix = Some pos -> kept_ok (kept_axes sh ix) pos.
Proof.
  revert ix pos; induction sh as [|n sh IH]; intros [|i ix] pos H; cbn in H.
  - injection H as <-. constructor.
  - discriminate.
  - destruct (resolve sh []) eqn:E; [|discriminate]. injection H as <-. cbn.
    constructor; [discriminate|]. apply (IH []). exact E.
  - destruct (index_positions n i) as [p|] eqn:Ep; [|discriminate].
    destruct (resolve sh ix) eqn:E; [|discriminate]. injection H as <-.
    destruct i as [z|a b c]; cbn; constructor; try discriminate; try (apply IH; exact E).
    intros _. cbn in Ep. destruct (_ && _)%bool; [|discriminate]. now injection Ep as <-.
Qed.

(** Enumerating the kept axes (C order of the transpose = first axis fastest)
    enumerates the product of the selected positions. *)
Lemma expand_f_indices kept pos :
  kept_ok kept pos ->
  map (expand kept pos) (f_indices (kept_shape kept pos)) =
  map (select 0 pos) (f_indices (map (@length nat) pos)).
Proof.
  intros H.
  (* first-fastest version: induction from the last axis *)
  revert pos H. induction kept as [|k kept IHk] using rev_ind; intros pos H.
  - inversion H; subst. reflexivity.
  - apply Forall2_app_inv_l in H. destruct H as (pos1 & pos2 & H1 & H2 & ->).
    inversion H2 as [|? p ? ? Hk Hnil]; subst. inversion Hnil; subst. clear H2 Hnil.
    assert (Hl : length kept = length pos1) by (eapply Forall2_len; eauto).
    rewrite map_app. cbn [map].
    rewrite f_indices_snoc, map_flat_map.
    assert (Hexp : forall idx i, length idx = length (kept_shape kept pos1) ->
       expand (kept ++ [true]) (pos1 ++ [p]) (idx ++ [i]) = expand kept pos1 idx ++ [nth i p 0]).
    { clear - Hl. revert pos1 Hl. induction kept as [|b kept IH]; intros [|q pos1] Hl idx i Hi; cbn in *; try lia.
      - destruct idx; [reflexivity|cbn in Hi; lia].
      - destruct b; cbn in Hi.
        + destruct idx as [|j idx]; cbn in Hi; [lia|]. cbn. f_equal. apply IH; lia.
        + cbn. f_equal. apply IH; lia. }
    assert (Hexf : forall idx, length idx = length (kept_shape kept pos1) ->
       expand (kept ++ [false]) (pos1 ++ [p]) idx = expand kept pos1 idx ++ [nth 0 p 0]).
    { clear - Hl. revert pos1 Hl. induction kept as [|b kept IH]; intros [|q pos1] Hl idx Hi; cbn in *; try lia.
      - destruct idx; [reflexivity|cbn in Hi; lia].
      - destruct b; cbn in Hi.
        + destruct idx as [|j idx]; cbn in Hi; [lia|]. cbn. f_equal. apply IH; lia.
        + cbn. f_equal. apply IH; lia. }
    assert (Hsel : forall ds i, length ds = length pos1 ->
       select 0 (pos1 ++ [p]) (ds ++ [i]) = select 0 pos1 ds ++ [nth i p 0]).
    { clear. intros ds i. revert ds. unfold select. induction pos1; intros [|x ds] Hd; cbn in *; try lia; auto.
      f_equal. apply IHpos1. lia. }
    assert (Hshape : kept_shape (kept ++ [k]) (pos1 ++ [p]) =
                     kept_shape kept pos1 ++ (if k then [length p] else [])).
    { clear - Hl. revert pos1 Hl. induction kept as [|b kept IH]; intros [|q pos1] Hl; cbn in *; try lia.
      - destruct k; reflexivity.
      - destruct b; cbn; rewrite IH by lia; reflexivity. }
    rewrite Hshape. specialize (IHk pos1 H1).
    assert (Hin : forall idx, In idx (f_indices (kept_shape kept pos1)) -> length idx = length (kept_shape kept pos1)).
    { intros idx Hi. apply in_f_indices in Hi. now apply valid_length. }
    assert (Hin2 : forall ds, In ds (f_indices (map (@length nat) pos1)) -> length ds = length pos1).
    { intros ds Hi. apply in_f_indices in Hi. apply valid_length in Hi. now rewrite map_length in Hi. }
    assert (Rhs : forall i, map (select 0 (pos1 ++ [p])) (map (fun ds => ds ++ [i]) (f_indices (map (@length nat) pos1)))
      = map (fun row => row ++ [nth i p 0]) (map (expand kept pos1) (f_indices (kept_shape kept pos1)))).
    { intros i. rewrite IHk, !map_map. apply map_ext_in. intros ds Hds. apply Hsel. auto. }
    destruct k.
    + rewrite f_indices_snoc, map_flat_map. apply flat_map_ext. intros i.
      rewrite Rhs, !map_map. apply map_ext_in. intros idx Hi. apply Hexp. auto.
    + rewrite app_nil_r, (Hk eq_refl). cbn [seq flat_map]. rewrite app_nil_r, Rhs, map_map.
      apply map_ext_in. intros idx Hi. apply Hexf. auto.
Qed.

Lemma multi_index_spec res ix :
  multi_index_getitem res ix =
  match resolve res ix with
  | None => None
  | Some pos => Some (map (fun ds => flat_id res (select 0 pos ds))
                          (f_indices (map (@length nat) pos)))
  end.
Proof.
  unfold multi_index_getitem, reshape_F. rewrite seq_length, Nat.eqb_refl.
  unfold nd_getitem. cbn [nd_shape nd_at].
  destruct (resolve res ix) as [pos|] eqn:E; auto. f_equal.
  unfold ravel_C, nd_T. cbn [nd_shape nd_at].
  set (k := kept_axes res ix).
  rewrite <- (map_map (@rev nat) (fun idx => nth (undigits res (expand k pos idx)) (seq 0 (prodn res)) 0)).
  rewrite c_indices_rev.
  rewrite <- (map_map (expand k pos) (fun l => nth (undigits res l) (seq 0 (prodn res)) 0)).
  unfold k. rewrite expand_f_indices by (now apply resolve_kept_ok).
  rewrite map_map. apply map_ext_in. intros ds Hds.
  assert (Hv : valid_digits res (select 0 pos ds)).
  { apply in_f_indices in Hds. pose proof (resolve_valid _ _ _ E) as RV.
    clear - Hds RV. revert ds Hds. induction RV as [|n p sh pos Hp RV IH]; intros ds Hds.
    - inversion Hds; subst. constructor.
    - cbn in Hds. inversion Hds; subst. cbn. constructor.
      + apply Hp. now apply nth_In.
      + now apply IH. }
  rewrite seq_nth by (now apply undigits_lt). cbn [Nat.add].
  symmetry. apply flat_id_undigits. now apply valid_length.
Qed.

Lemma multi_index_ints_resolve res zs pos :
  Forall2 (fun n zi => exists i, snd zi = i /\ i < n /\ (fst zi = Z.of_nat i \/ fst zi = (Z.of_nat i - Z.of_nat n)%Z)) res (combine zs pos) ->
  length zs = length pos ->
  resolve res (map IInt zs) = Some (map (fun i => [i]) pos).
Proof.
  revert zs pos; induction res as [|n res IH]; intros [|z zs] [|p pos] H Hl; cbn in *; try lia;
  inversion H; subst; auto.
  destruct H3 as (i & Ei & Hi & Hz). cbn in *. subst p.
  rewrite (IH zs pos) by (auto; lia).
  destruct Hz as [->| ->].
  - replace (Z.of_nat i <? 0)%Z with false by lia.
    replace ((0 <=? Z.of_nat i)%Z && (Z.of_nat i <? Z.of_nat n)%Z)%bool with true by lia.
    now rewrite Nat2Z.id.
  - replace (Z.of_nat i - Z.of_nat n <? 0)%Z with true by lia.
    replace (Z.of_nat i - Z.of_nat n + Z.of_nat n)%Z with (Z.of_nat i) by lia.
    replace ((0 <=? Z.of_nat i)%Z && (Z.of_nat i <? Z.of_nat n)%Z)%bool with true by lia.
    now rewrite Nat2Z.id.
Qed.

Lemma cartesian_product_nth {A} (d : A) arrays :
  arrays <> [] ->
  exists rows, cartesian_product arrays true = Some rows /\
    length rows = fold_right Nat.mul 1 (map (@length A) arrays) /\
    forall id, id < length rows ->
      length (nth id rows []) = length arrays /\
      forall k, k < length arrays ->
        axis_position (map (@length A) arrays) id k < length (nth k arrays []) /\
        nth k (nth id rows []) d =
        nth (axis_position (map (@length A) arrays) id k) (nth k arrays []) d.
Proof.
  intros Hne. eexists. split; [now apply (cartesian_product_spec d)|].
  rewrite map_length, length_f_indices, (fold_right_mul_prodn (map (@length A) arrays)). split; auto.
  intros id Hid.
  assert (E : nth id (map (select d arrays) (f_indices (map (@length A) arrays))) [] =
              select d arrays (digits (map (@length A) arrays) id)).
  { apply nth_error_nth. rewrite nth_error_map, nth_error_f_indices.
    replace (id <? prodn (map (@length A) arrays)) with true by (symmetry; apply Nat.ltb_lt; lia).
    reflexivity. }
  rewrite E. split.
  - unfold select. rewrite map_length, combine_length, length_digits, map_length. lia.
  - intros k Hk. split.
    + rewrite <- (axis_position_digits _ _ _ 0) by (rewrite map_length; lia).
      assert (HF := prodn_pos_inv _ (Nat.le_lt_trans _ _ _ (Nat.le_0_l id) Hid)).
      pose proof (valid_nth _ _ k (digits_valid _ id HF)) as V.
      rewrite map_length in V. specialize (V Hk).
      now rewrite (map_nth (@length A) arrays []) in V.
    + rewrite <- (axis_position_digits _ _ _ 0) by (rewrite map_length; lia).
      unfold select.
      assert (Hl : length (digits (map (@length A) arrays) id) = length arrays)
        by (rewrite length_digits, map_length; auto).
      clear E. generalize dependent (digits (map (@length A) arrays) id).
      clear - Hk. revert k Hk. induction arrays as [|a arrays IH]; intros k Hk [|x ds] Hl;
      cbn in *; try lia. destruct k; auto. apply IH; lia.
Qed.

Lemma grid_bounds bounds resolutions g id k :
  grid_setup bounds resolutions = Some g -> k < length resolutions ->
  (nth k bounds 0 <= nth (k + length resolutions) bounds 0)%Qc ->
  (nth k bounds 0 <= nth k (id_to_grid_point g id) 0 <= nth (k + length resolutions) bounds 0)%Qc.
Proof.
  intros H Hk Hb. pose proof (grid_setup_spec _ _ _ H) as (E1 & E2 & E3 & E4 & E5).
  assert (Hl : length (g_res g) = length resolutions) by (rewrite E1, map_length; auto).
  unfold id_to_grid_point. rewrite id_to_point_nth by lia. rewrite E5 by lia.
  set (r := nth k (g_res g) 0).
  assert (Hr : 2 <= r).
  { rewrite Forall_forall in E3. apply E3. apply nth_In. lia. }
  pose proof (valid_nth _ _ k (digits_valid _ id (Forall_ge2_pos _ E3)) ltac:(lia)) as V.
  fold r in V. set (j := nth k (digits (g_res g) id) 0) in *.
  set (lo := nth k bounds 0%Qc) in *. set (up := nth (k + length resolutions) bounds 0%Qc) in *.
  split.
  - rewrite <- (linspace_first lo up r Hr) at 1. apply linspace_mono; auto; lia.
  - rewrite <- (linspace_last lo up r Hr) at 2. apply linspace_mono; auto; lia.
Qed.

Lemma grid_endpoints bounds resolutions g id k :
  grid_setup bounds resolutions = Some g -> k < length resolutions ->
  (axis_position (map Z.to_nat resolutions) id k = 0 ->
   nth k (id_to_grid_point g id) 0%Qc = nth k bounds 0%Qc) /\
  (axis_position (map Z.to_nat resolutions) id k = Z.to_nat (nth k resolutions 0%Z) - 1 ->
   nth k (id_to_grid_point g id) 0%Qc = nth (k + length resolutions) bounds 0%Qc).
Proof.
  intros H Hk. pose proof (grid_setup_spec _ _ _ H) as (E1 & E2 & E3 & E4 & E5).
  assert (Hl : length (g_res g) = length resolutions) by (rewrite E1, map_length; auto).
  unfold id_to_grid_point. rewrite id_to_point_nth by lia. rewrite E5 by lia.
  rewrite <- E1. rewrite <- (axis_position_digits _ _ _ 0) by lia.
  assert (Er : Z.to_nat (nth k resolutions 0%Z) = nth k (g_res g) 0).
  { rewrite E1. change 0 with (Z.to_nat 0) at 1. now rewrite map_nth. }
  rewrite Er.
  assert (Hr : 2 <= nth k (g_res g) 0).
  { rewrite Forall_forall in E3. apply E3. apply nth_In. lia. }
  split; intros ->; [now apply linspace_first|now apply linspace_last].
Qed.

Lemma grid_monotone bounds resolutions g id1 id2 k :
  grid_setup bounds resolutions = Some g -> k < length resolutions ->
  (nth k bounds 0 <= nth (k + length resolutions) bounds 0)%Qc ->
  axis_position (map Z.to_nat resolutions) id1 k <= axis_position (map Z.to_nat resolutions) id2 k ->
  (nth k (id_to_grid_point g id1) 0 <= nth k (id_to_grid_point g id2) 0)%Qc.
Proof.
  intros H Hk Hb. pose proof (grid_setup_spec _ _ _ H) as (E1 & E2 & E3 & E4 & E5).
  assert (Hl : length (g_res g) = length resolutions) by (rewrite E1, map_length; auto).
  unfold id_to_grid_point. rewrite !id_to_point_nth by lia. rewrite E5 by lia.
  rewrite <- E1. rewrite <- !(axis_position_digits _ _ _ 0) by lia. intros Hle.
  assert (Hr : 2 <= nth k (g_res g) 0).
  { rewrite Forall_forall in E3. apply E3. apply nth_In. lia. }
  pose proof (valid_nth _ _ k (digits_valid _ id2 (Forall_ge2_pos _ E3)) ltac:(lia)) as V.
  apply linspace_mono; auto.
Qed.

Lemma grid_size_product bounds resolutions g :
  grid_setup bounds resolutions = Some g ->
  grid_size g = fold_right Nat.mul 1 (map Z.to_nat resolutions).
Proof.
  intros H. apply grid_setup_spec in H. destruct H as (E1 & _).
  rewrite grid_size_prodn, E1. symmetry. apply fold_right_mul_prodn.
Qed.

(** The multi index of every in-range integer tuple. *)
Lemma multi_index_ints res zs idx :
  length zs = length idx -> length idx = length res ->
  (forall k, k < length res ->
     nth k idx 0 < nth k res 0 /\
     (nth k zs 0%Z = Z.of_nat (nth k idx 0) \/
      nth k zs 0%Z = (Z.of_nat (nth k idx 0%nat) - Z.of_nat (nth k res 0%nat))%Z)) ->
  multi_index_getitem res (map IInt zs) = Some [flat_id res idx].
Proof.
  intros Hl1 Hl2 H. rewrite multi_index_spec, (multi_index_ints_resolve res zs idx); auto.
  - f_equal. rewrite map_map. cbn [length].
    assert (E : f_indices (map (fun _ => 1) idx) = [map (fun _ => 0) idx]).
    { clear. unfold f_indices.
      replace (prodn (map (fun _ => 1) idx)) with 1 by (induction idx; cbn; lia).
      cbn. f_equal. induction idx; cbn; auto. f_equal. exact IHidx. }
    rewrite E. cbn. f_equal. f_equal.
    clear. unfold select. induction idx; cbn; auto. f_equal. exact IHidx.
  - revert zs idx Hl1 Hl2 H. induction res as [|n res IH]; intros [|z zs] [|i idx] Hl1 Hl2 H;
    cbn in *; try lia; constructor.
    + destruct (H 0 ltac:(lia)) as [H1 H2]. exists i. cbn. auto.
    + apply IH; try lia. intros k Hk. apply (H (S k)). lia.
Qed.

Lemma resolve_ints_error res zs k :
  k < length zs ->
  (length res <= k \/
   (nth k zs 0 >= Z.of_nat (nth k res 0%nat) \/ nth k zs 0 < - Z.of_nat (nth k res 0%nat))%Z) ->
  resolve res (map IInt zs) = None.
Proof.
  revert zs k; induction res as [|n res IH]; intros [|z zs] k Hk Hbad; cbn in *; try lia; auto.
  destruct k.
  - destruct Hbad as [Hbad|Hbad]; [lia|].
    set (z' := if (z <? 0)%Z then _ else _).
    assert (E : ((0 <=? z')%Z && (z' <? Z.of_nat n)%Z)%bool = false).
    { unfold z'. destruct (Z.ltb_spec z 0); lia. }
    now rewrite E.
  - rewrite (IH zs k); [|lia|destruct Hbad; [left; lia|right; auto]].
    destruct (_ && _)%bool; reflexivity.
Qed.

Lemma multi_index_error res zs k :
  k < length zs ->
  (length res <= k \/
   (nth k zs 0 >= Z.of_nat (nth k res 0%nat) \/ nth k zs 0 < - Z.of_nat (nth k res 0%nat))%Z) ->
  multi_index_getitem res (map IInt zs) = None.
Proof. intros. rewrite multi_index_spec. erewrite resolve_ints_error; eauto. Qed.

Lemma flat_id_bijective res :
  (forall idx, Forall2 (fun r i => i < r) res idx -> flat_id res idx < fold_right Nat.mul 1 res) /\
  (forall i j, Forall2 (fun r i => i < r) res i -> Forall2 (fun r i => i < r) res j ->
               flat_id res i = flat_id res j -> i = j) /\
  (forall id, id < fold_right Nat.mul 1 res ->
     exists idx, Forall2 (fun r i => i < r) res idx /\ flat_id res idx = id).
Proof.
  rewrite fold_right_mul_prodn. repeat split.
  - intros idx V. rewrite flat_id_undigits by (now apply valid_length). now apply undigits_lt.
  - intros i j Vi Vj. rewrite !flat_id_undigits by (now apply valid_length).
    now apply undigits_inj.
  - intros id Hid. exists (digits res id).
    assert (V : valid_digits res (digits res id))
      by (apply digits_valid, prodn_pos_inv; lia).
    split; auto. rewrite flat_id_undigits by (now apply valid_length).
    now apply undigits_digits.
Qed.

(** Every slice / integer subscript: the result lists the ids of the selected
    multi indices, first axis fastest. *)
Lemma multi_index_subscript res ix pos :
  resolve res ix = Some pos ->
  exists ids, multi_index_getitem res ix = Some ids /\
    length ids = fold_right Nat.mul 1 (map (@length nat) pos) /\
    forall n, n < length ids ->
      nth n ids 0 =
      flat_id res (map (fun k => nth (axis_position (map (@length nat) pos) n k) (nth k pos []) 0)
                       (seq 0 (length res))).
Proof.
  intros H. rewrite multi_index_spec, H. eexists. split; [reflexivity|].
  rewrite map_length, length_f_indices, (fold_right_mul_prodn (map (@length nat) pos)). split; auto.
  intros n Hn. pose proof (resolve_length _ _ _ H) as Hl.
  set (lens := map (@length nat) pos) in *.
  rewrite (nth_indep _ 0 (flat_id res (select 0 pos []))) by (rewrite map_length, length_f_indices; auto).
  rewrite (map_nth (fun ds => flat_id res (select 0 pos ds))).
  assert (E : nth n (f_indices lens) [] = digits lens n).
  { apply nth_error_nth. rewrite nth_error_f_indices.
    replace (n <? prodn lens) with true by (symmetry; apply Nat.ltb_lt; lia). reflexivity. }
  rewrite E. f_equal. rewrite <- Hl.
  assert (Hd : forall k, k < length pos -> nth k (digits lens n) 0 = axis_position lens n k).
  { intros k Hk. apply axis_position_digits. unfold lens. rewrite map_length. auto. }
  rewrite (map_ext_in _ (fun k => nth (nth k (digits lens n) 0) (nth k pos []) 0)).
  2:{ intros k Hk. apply in_seq in Hk. now rewrite Hd by lia. }
  clear Hd E. assert (Hdl : length (digits lens n) = length pos)
    by (unfold lens; rewrite length_digits, map_length; auto).
  generalize dependent (digits lens n). clear. intros ds. revert ds.
  unfold select. induction pos as [|p pos IH]; intros [|d ds] Hl; cbn in *; try lia; auto.
  f_equal. rewrite <- seq_shift, map_map. apply IH. lia.
Qed.
