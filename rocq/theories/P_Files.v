(** Proofs about npz and json files. *)
From Coq Require Import String Ascii List Arith ZArith Bool Lia QArith Qcanon.
From Coq Require Import DecimalNat DecimalString.
From Verif Require Import Base BaseQc S_Value M_Core S_Core P_Core P_Boundaries M_Files S_Files.
Import ListNotations.
Local Open Scope string_scope.
Local Open Scope list_scope.
Local Open Scope nat_scope.

(** * Names *)
Fixpoint no_us (s : string) : Prop :=
  match s with
  | EmptyString => True
  | String c s => c <> "_"%char /\ no_us s
  end.
Lemma no_us_uint d : no_us (NilEmpty.string_of_uint d).
Proof. induction d; cbn; auto; split; auto; discriminate. Qed.
Lemma no_us_dec n : no_us (dec n).
Proof. apply no_us_uint. Qed.
Lemma dec_inj i j : dec i = dec j -> i = j.
Proof.
  unfold dec. intros H. apply (f_equal NilEmpty.uint_of_string) in H. rewrite !NilEmpty.usu in H.
  injection H as H. apply (f_equal Nat.of_uint) in H. now rewrite !Unsigned.of_to in H.
Qed.
Lemma split_us x : forall y a b, no_us x -> no_us y ->
  (x ++ "_" ++ a)%string = (y ++ "_" ++ b)%string -> x = y /\ a = b.
Proof.
  induction x as [|c x IH]; intros [|c' y] a b Hx Hy H; cbn in *.
  - injection H as ->. auto.
  - injection H as E1 E2. symmetry in E1. easy.
  - injection H as E1 E2. easy.
  - injection H as E1 E2. destruct (IH y a b) as [-> ->]; try easy. now subst.
Qed.
Lemma key_inj i j a b : npz_key i a = npz_key j b -> i = j /\ a = b.
Proof.
  unfold npz_key. intros H. injection H as H. apply split_us in H as [H1 H2]; [|apply no_us_dec|apply no_us_dec].
  split; [now apply dec_inj|easy].
Qed.
Lemma kv_inj i j : kv_name i = kv_name j -> i = j.
Proof. unfold kv_name. intros H. injection H as H. now apply dec_inj. Qed.

(** * Dictionaries *)
Lemma get_some {V} (d : list (string * V)) k v :
  In (k, v) d -> (forall v', In (k, v') d -> v' = v) -> get d k = Some v.
Proof.
  intros H U. unfold get. destruct (find (fun e => String.eqb (fst e) k) (rev d)) as [[k' v']|] eqn:E.
  - apply find_some in E as [E1 E2]. cbn in E2. apply String.eqb_eq in E2. subst k'. apply in_rev in E1.
    cbn. f_equal. auto.
  - exfalso. apply in_rev in H. pose proof (find_none _ _ E _ H) as X. cbn in X. now rewrite String.eqb_refl in X.
Qed.
Lemma get_none {V} (d : list (string * V)) k : (forall v, ~ In (k, v) d) -> get d k = None.
Proof.
  intros H. unfold get. destruct (find (fun e => String.eqb (fst e) k) (rev d)) as [[k' v']|] eqn:E; [|easy].
  apply find_some in E as [E1 E2]. cbn in E2. apply String.eqb_eq in E2. subst k'. apply in_rev in E1.
  destruct (H _ E1).
Qed.

Lemma in_enumerate {A} (l : list A) s i x : In (i, x) (combine (seq s (length l)) l) <->
  s <= i /\ nth_error l (i - s) = Some x.
Proof.
  revert s; induction l as [|y l IH]; intros s; cbn.
  - split; [easy|]. now destruct (i - s).
  - rewrite IH. split.
    + intros [[= <- <-]|[H E]].
      * rewrite Nat.sub_diag. split; [lia|easy].
      * split; [lia|]. replace (i - s) with (S (i - S s)) by lia. easy.
    + intros [H E]. destruct (Nat.eq_dec s i) as [->|N].
      * left. rewrite Nat.sub_diag in E. cbn in E. congruence.
      * right. split; [lia|]. replace (i - s) with (S (i - S s)) in E by lia. easy.
Qed.

Lemma in_npz_spline i s k v : In (k, v) (npz_spline i s) -> exists n, k = npz_key i n.
Proof.
  unfold npz_spline. rewrite !in_app_iff. intros [H|[H|H]].
  - destruct H as [[= <- <-]|[[= <- <-]|[]]]; eauto.
  - destruct (sp_weights s); [|easy]. destruct H as [[= <- <-]|[]]. eauto.
  - destruct (has_kvs s); [|easy]. apply in_map_iff in H as (j & [= <- <-] & _). eauto.
Qed.
Lemma in_export l i n v : In (npz_key i n, v) (export_npz l) <->
  exists o, nth_error l i = Some o /\ In (npz_key i n, v) (npz_spline i (o_core o)).
Proof.
  unfold export_npz. cbn [In]. rewrite in_flat_map. split.
  - intros [H|((j & o) & H1 & H2)]; [unfold npz_key in H; discriminate|]. cbn [fst snd] in H2.
    pose proof (in_npz_spline _ _ _ _ H2) as (m & E). apply key_inj in E as [<- _].
    apply in_enumerate in H1 as [_ H1]. rewrite Nat.sub_0_r in H1. eauto.
  - intros (o & H1 & H2). right. exists (i, o). split; [|easy]. apply in_enumerate. rewrite Nat.sub_0_r.
    split; [lia|easy].
Qed.

(** What is found under the names of one spline. *)
Lemma npz_entries i s n v : In (npz_key i n, v) (npz_spline i s) <->
  (n = "degrees" /\ v = NInts (core_degrees s)) \/ (n = "control_points" /\ v = NMat (sp_cps s)) \/
  (exists w, sp_weights s = Some w /\ n = "weights" /\ v = NReals w) \/
  (has_kvs s = true /\ exists j, j < length (sp_axes s) /\ n = kv_name j /\ v = NReals (nth j (core_kvs s) [])).
Proof.
  unfold npz_spline. rewrite !in_app_iff. cbn [In]. split.
  - intros [[H|[H|[]]]|[H|H]].
    + injection H as H1 H2. apply key_inj in H1 || (pose proof (split_us _ _ _ _ (no_us_dec i) (no_us_dec i) H1) as [_ H1']).
      left. auto.
    + injection H as H1 H2. pose proof (split_us (dec i) (dec i) _ _ (no_us_dec i) (no_us_dec i) H1) as [_ H1'].
      right. left. auto.
    + destruct (sp_weights s) as [w|]; [|easy]. destruct H as [H|[]]. injection H as H1 H2.
      pose proof (split_us (dec i) (dec i) _ _ (no_us_dec i) (no_us_dec i) H1) as [_ H1']. right. right. left. eauto.
    + destruct (has_kvs s); [|easy]. apply in_map_iff in H as (j & H & Hj). injection H as H1 H2.
      pose proof (split_us (dec i) (dec i) _ _ (no_us_dec i) (no_us_dec i) H1) as [_ H1'].
      right. right. right. split; [easy|]. exists j. apply in_seq in Hj. repeat split; auto; lia.
  - intros [[-> ->]|[[-> ->]|[(w & -> & -> & ->)|(H & j & Hj & -> & ->)]]]; auto.
    + right. left. now left.
    + right. right. rewrite H. apply in_map_iff. exists j. split; [easy|]. apply in_seq. lia.
Qed.

Section Entries.
Variables (l : list object) (i : nat) (o : object).
Hypothesis Hi : nth_error l i = Some o.
Let s := o_core o.
Lemma entry n v : In (npz_key i n, v) (export_npz l) <-> In (npz_key i n, v) (npz_spline i s).
Proof.
  rewrite in_export. split.
  - intros (o' & H1 & H2). rewrite Hi in H1. injection H1 as <-. exact H2.
  - intros H. eauto.
Qed.
Ltac names := let H := fresh in intros H;
  repeat match goal with
  | H : _ \/ _ |- _ => destruct H as [H|H]
  | H : exists _, _ |- _ => destruct H as [? H]
  | H : _ /\ _ |- _ => destruct H as [? H]
  | H : _ = kv_name _ |- _ => discriminate H
  end; try discriminate; try congruence.
Lemma get_degrees_npz : get (export_npz l) (npz_key i "degrees") = Some (NInts (core_degrees s)).
Proof.
  apply get_some; [apply entry, npz_entries; auto|]. intros v'. rewrite entry, npz_entries. names.
Qed.
Lemma get_cps_npz : get (export_npz l) (npz_key i "control_points") = Some (NMat (sp_cps s)).
Proof.
  apply get_some; [apply entry, npz_entries; auto|]. intros v'. rewrite entry, npz_entries. names.
Qed.
Lemma get_ws_npz : get (export_npz l) (npz_key i "weights") = option_map NReals (sp_weights s).
Proof.
  destruct (sp_weights s) as [w|] eqn:E; cbn [option_map].
  - apply get_some; [apply entry, npz_entries; right; right; left; eauto|]. intros v'. rewrite entry, npz_entries. names.
  - apply get_none. intros v. rewrite entry, npz_entries. names.
Qed.
Lemma get_kv_npz j : get (export_npz l) (npz_key i (kv_name j)) =
  if has_kvs s && (j <? length (sp_axes s)) then Some (NReals (nth j (core_kvs s) [])) else None.
Proof.
  destruct (has_kvs s) eqn:E; cbn [andb].
  - destruct (Nat.ltb_spec j (length (sp_axes s))) as [L|L].
    + apply get_some; [apply entry, npz_entries; right; right; right; eauto|]. intros v'. rewrite entry, npz_entries.
      intros [[X _]|[[X _]|[(w & _ & X & _)|(_ & j' & _ & X & ->)]]]; try (unfold kv_name in X; discriminate X).
      apply kv_inj in X. now subst j'.
    + apply get_none. intros v. rewrite entry, npz_entries.
      intros [[X _]|[[X _]|[(w & _ & X & _)|(_ & j' & Hj & X & _)]]]; try (unfold kv_name in X; discriminate X).
      apply kv_inj in X. lia.
  - apply get_none. intros v. rewrite entry, npz_entries.
    intros [[X _]|[[X _]|[(w & _ & X & _)|(X & _)]]]; try (unfold kv_name in X; discriminate X). congruence.
Qed.
End Entries.

Lemma get_count_npz l : get (export_npz l) "number_of_splines" = Some (NCount (length l)).
Proof.
  apply get_some; [now left|]. intros v [H|H]; [congruence|]. apply in_flat_map in H as ((j & o) & _ & H).
  apply in_npz_spline in H as (n & H). unfold npz_key in H. discriminate H.
Qed.

(** * Cores *)
Lemma core_props s degs kvs cps ws : consistent degs kvs cps ws -> has_properties s degs kvs cps ws ->
  core_degrees s = degs /\ (if has_kvs s then Some (core_kvs s) else None) = kvs /\ sp_cps s = cps /\
  sp_weights s = ws /\ s = Spl (make_axes degs kvs) cps ws /\ length (sp_axes s) = length degs /\
  ((exists p kv, In (KnotAxis p kv) (sp_axes s)) <-> has_kvs s = true).
Proof.
  intros C H. pose proof (properties_unique _ _ _ _ _ _ H (new_core_properties _ _ _ _ C)) as E.
  destruct H as (H1 & H2 & H3 & H4). unfold core_degrees. refine (conj H1 (conj _ (conj H3 (conj H4 (conj E (conj _ _)))))).
  - destruct C as (N & _). assert (sp_axes s <> []) as N' by (intros X; rewrite X in H1; cbn in H1; congruence).
    unfold has_kvs, core_kvs. destruct kvs as [kvs|].
    + destruct H2 as [|a kv ax kvs' (p & ->) F]; [easy|]. cbn. do 2 f_equal. clear - F.
      induction F as [|a kv' ax kvs' (p & ->) F IH]; cbn; congruence.
    + destruct H2 as [|a ax (p & ->) F]; [easy|]. reflexivity.
  - rewrite <- H1. now rewrite map_length.
  - destruct C as (N & _). assert (sp_axes s <> []) as N' by (intros X; rewrite X in H1; cbn in H1; congruence).
    unfold has_kvs. destruct kvs as [kvs|].
    + destruct H2 as [|a kv ax kvs' (p & ->) F]; [easy|]. split; [easy|]. intros _. exists p, kv. now left.
    + split.
      * intros (p & kv & X). rewrite Forall_forall in H2. destruct (H2 _ X) as [q Y]. discriminate.
      * destruct H2 as [|a ax (p & ->) F]; [easy|discriminate].
Qed.

Lemma name_right s : forall limit, storable limit s -> right_class (name_of s) s.
Proof.
  intros limit (degs & kvs & cps & ws & C & _ & H). apply core_props in H as (_ & _ & _ & _ & _ & _ & K); [|easy].
  unfold right_class, name_of. rewrite K. destruct (has_kvs s), (sp_weights s); cbn; intuition congruence.
Qed.
Lemma right_unique c c' s : right_class c s -> right_class c' s -> c = c'.
Proof.
  intros [A1 A2] [B1 B2]. rewrite <- B1 in A1. rewrite <- B2 in A2.
  destruct c, c'; cbn in *; try easy; intuition congruence.
Qed.

Lemma generic_ok limit s : storable limit s ->
  generic limit (core_degrees s) (if has_kvs s then Some (core_kvs s) else None) (sp_cps s) (sp_weights s) = Some s.
Proof.
  intros (degs & kvs & cps & ws & C & U & H).
  destruct (core_props s degs kvs cps ws C H) as (-> & -> & -> & -> & E & _).
  unfold generic. pose proof C as (_ & _ & (dim & _ & R) & _ & W).
  replace (match ws with Some w => negb (length w =? length cps) | None => false end) with false
    by (destruct ws; [rewrite W, Nat.eqb_refl|]; easy).
  rewrite (uniform_rect _ _ R). cbn [negb].
  pose proof (fits_sized _ _ _ _ C) as K. unfold kvs_sized in K.
  replace (match kvs with Some k => negb (length k =? length degs) | None => false end) with false
    by (destruct kvs; [rewrite K, Nat.eqb_refl|]; easy).
  apply new_core_spec; auto. now apply (uniform_rect dim).
Qed.

Lemma all_some_map_eq {A B} (f : A -> option B) (g : A -> B) l : (forall x, In x l -> f x = Some (g x)) ->
  all_some (map f l) = Some (map g l).
Proof.
  induction l as [|x l IH]; intros H; cbn; [easy|]. rewrite H by now left. rewrite IH; [easy|].
  intros y Hy. apply H. now right.
Qed.

Lemma npz_one limit l i o : nth_error l i = Some o -> storable limit (o_core o) ->
  npz_load_one limit (export_npz l) i = Some (Object (Some (name_of (o_core o))) (o_core o)).
Proof.
  intros Hi St. unfold npz_load_one.
  rewrite (get_cps_npz l i o Hi), (get_degrees_npz l i o Hi), (get_ws_npz l i o Hi), (get_kv_npz l i o Hi).
  cbn [mat ints].
  set (s := o_core o) in *.
  assert (forall w, sp_weights s = w -> (match option_map NReals w with None => Some None
     | v => option_map Some (reals v) end) = Some w) as X by (intros [w|] _; reflexivity).
  rewrite (X _ eq_refl). clear X.
  pose proof (generic_ok limit s St) as G. destruct St as (degs & kvs & cps & ws & C & U & H).
  destruct (core_props s degs kvs cps ws C H) as (E1 & E2 & E3 & E4 & E5 & E6 & _).
  destruct C as (N & _).
  assert (length (core_kvs s) = length (core_degrees s)) as L by (unfold core_kvs, core_degrees; now rewrite !map_length).
  assert (length (core_degrees s) = length (sp_axes s)) as L2 by (unfold core_degrees; now rewrite map_length).
  destruct (has_kvs s) eqn:K; cbn [andb].
  - destruct (Nat.ltb_spec 0 (length (sp_axes s))) as [Z|Z]; [|destruct degs; [easy|cbn in E6; lia]].
    rewrite (all_some_map_eq _ (fun j => nth j (core_kvs s) [])).
    + replace (map (fun j => nth j (core_kvs s) []) (seq 0 (length (core_degrees s)))) with (core_kvs s).
      * cbn [option_map]. now rewrite G.
      * rewrite <- L. clear. induction (core_kvs s) as [|k ks IH]; [easy|]. cbn [length seq map nth]. f_equal.
        rewrite <- seq_shift, map_map. exact IH.
    + intros j Hj. apply in_seq in Hj. rewrite (get_kv_npz l i o Hi j). fold s. rewrite K. cbn [andb].
      destruct (Nat.ltb_spec j (length (sp_axes s))); [easy|lia].
  - cbn [option_map]. now rewrite G.
Qed.

Lemma npz_roundtrip limit l : Forall (fun o => storable limit (o_core o)) l ->
  load_npz limit (export_npz l) = Some (map (fun o => Object (Some (name_of (o_core o))) (o_core o)) l).
Proof.
  intros F. unfold load_npz. rewrite get_count_npz. rewrite Forall_forall in F.
  transitivity (all_some (map (fun o => Some (Object (Some (name_of (o_core o))) (o_core o))) l)).
  - f_equal. apply nth_error_ext. intros i. rewrite !nth_error_map.
    destruct (Nat.lt_ge_cases i (length l)) as [L|L].
    + rewrite nth_error_nth' with (d := 0) by now rewrite seq_length. rewrite seq_nth by easy. cbn.
      destruct (nth_error l i) as [o|] eqn:E; [|apply nth_error_None in E; lia]. cbn. f_equal.
      apply npz_one; auto. apply F. eapply nth_error_In; eauto.
    + rewrite !(proj2 (nth_error_None _ _)); auto; try lia. now rewrite seq_length.
  - now apply all_some_map_eq.
Qed.

(** * json *)
Lemma uncolumn_column w : uncolumn (column w) = Some w.
Proof. unfold uncolumn, column. rewrite map_map. induction w; cbn; [easy|]. now rewrite IHw. Qed.

Lemma rows_concat {A} n (m : list (list A)) : forall fuel, Forall (fun r => length r = S n) m -> length (concat m) <= fuel ->
  rows fuel (S n) (concat m) = m.
Proof.
  induction m as [|r m IH]; intros fuel F L; [now destruct fuel|]. inversion F as [|? ? Lr F']; subst.
  cbn [concat] in *. rewrite app_length in L.
  destruct r as [|x r]; [easy|]. destruct fuel as [|fuel]; [cbn in L; lia|].
  cbn [app rows]. 
  change (x :: r ++ concat m) with ((x :: r) ++ concat m).
  rewrite <- Lr. rewrite firstn_app, Nat.sub_diag, firstn_all, firstn_O, app_nil_r.
  rewrite skipn_app, Nat.sub_diag, skipn_all. cbn [skipn app]. f_equal. rewrite Lr. apply IH; [easy|]. cbn in L. lia.
Qed.
Lemma concat_length_mul {A} n (m : list (list A)) : Forall (fun r => length r = n) m -> length (concat m) = length m * n.
Proof. induction 1; cbn; [easy|]. rewrite app_length. lia. Qed.
Lemma reshape_concat {A} n (m : list (list A)) : 0 < n -> Forall (fun r => length r = n) m -> reshape n (concat m) = Some m.
Proof.
  intros H F. unfold reshape. destruct n as [|n]; [lia|]. cbn [Nat.eqb].
  rewrite (concat_length_mul (S n)) at 1 by easy. rewrite Nat.mod_mul by lia. cbn [Nat.eqb].
  f_equal. now apply rows_concat.
Qed.

Lemma class_named_ok c : class_named (type_name (Some c)) = Some c.
Proof. now destruct c. Qed.

Lemma get_app_last {V} (d : list (string * V)) k k' v :
  get (d ++ [(k', v)]) k = if String.eqb k' k then Some v else get d k.
Proof. unfold get. rewrite rev_app_distr. cbn [rev app find fst]. now destruct (String.eqb k' k). Qed.

Lemma json_one limit b64 o : own_class o -> storable limit (o_core o) ->
  exists d, json_spline b64 o = Some d /\ json_load_one limit b64 d = Some o.
Proof.
  destruct o as [oc s]. unfold own_class. cbn [o_cls o_core]. intros (c & -> & R) St.
  assert (c = name_of s) as Ec by (eapply right_unique; [exact R|now apply (name_right s limit)]).
  assert (needs_kvs c = has_kvs s) as K1 by (subst c; unfold name_of; destruct (has_kvs s), (sp_weights s); easy).
  assert (needs_ws c = match sp_weights s with Some _ => true | None => false end) as K2
    by (subst c; unfold name_of; destruct (has_kvs s), (sp_weights s); easy).
  clear R. destruct St as (degs & kvs & cps & ws & C & U & H).
  destruct (core_props s degs kvs cps ws C H) as (E1 & E2 & E3 & E4 & E5 & E6 & _).
  assert (built limit c (Inputs (Some degs) kvs (Some cps) ws) s) as (st & B1 & B2).
  { apply (construct_accepts limit c _ degs kvs cps ws); [|auto]. split; [easy|]. split; [easy|].
    rewrite Ec. unfold name_of. rewrite E4. destruct (has_kvs s), ws; cbn; rewrite <- E2; repeat split; discriminate. }
  pose proof C as (_ & _ & (dim & D1 & D2) & _ & W).
  assert (cps <> []) as Nc.
  { intros X. destruct C as (_ & F & _ & Wn & _). rewrite X in Wn. cbn [length] in Wn.
    destruct kvs as [kvs|]; [apply wanted_pos_kvs in F|apply wanted_pos in F].
    - lia.
    - lia. }
  assert (dim_of cps = dim) as Dim by now apply dim_of_uniform.
  unfold json_spline. cbn [o_cls o_core wants_ws].
  set (base := todict s ++ _).
  assert (forall k v, In (k, v) base <->
    (k = "degrees" /\ v = JInts degs) \/ (k = "control_points" /\ v = JMat cps) \/
    (exists kk, kvs = Some kk /\ k = "knot_vectors" /\ v = JMat kk) \/
    (exists w, ws = Some w /\ k = "weights" /\ v = JMat (column w)) \/
    (k = "SplineType" /\ v = JType (type_name (Some c))) \/ (k = "dim" /\ v = JInt dim) \/
    (k = "para_dim" /\ v = JInt (length degs))) as Hb.
  { intros k v. unfold base, todict. rewrite E1, E3, E4, E6, Dim, !in_app_iff. cbn [In].
    destruct (has_kvs s); subst kvs; destruct ws as [w|]; cbn [In]; split; intros X;
    repeat match goal with
    | H : _ \/ _ |- _ => destruct H as [H|H]
    | H : exists _, _ |- _ => destruct H as [? H]
    | H : _ /\ _ |- _ => destruct H as [? H]
    | H : False |- _ => destruct H
    | H : (_, _) = (_, _) |- _ => injection H as <- <-
    | H : Some _ = Some _ |- _ => injection H as <-
    | H : None = Some _ |- _ => discriminate H
    end; subst; intuition eauto. }
  assert (forall k v, In (k, v) base -> (forall v', In (k, v') base -> v' = v) -> get base k = Some v) as Gs by (intros; now apply get_some).
  Ltac jnames Hb := let X := fresh in intros X; apply Hb in X;
    repeat match goal with
    | H : _ \/ _ |- _ => destruct H as [H|H]
    | H : exists _, _ |- _ => destruct H as [? H]
    | H : _ /\ _ |- _ => destruct H as [? H]
    end; try discriminate; try congruence.
  assert (get base "degrees" = Some (JInts degs)) as G1 by (apply Gs; [apply Hb; auto|intros v'; jnames Hb]).
  assert (get base "control_points" = Some (JMat cps)) as G2 by (apply Gs; [apply Hb; auto|intros v'; jnames Hb]).
  assert (get base "knot_vectors" = option_map JMat kvs) as G3.
  { destruct kvs as [kk|]; cbn [option_map].
    - apply Gs; [apply Hb; right; right; left; eauto|intros v'; jnames Hb].
    - apply get_none. intros v. jnames Hb. }
  assert (get base "weights" = option_map (fun w => JMat (column w)) ws) as G4.
  { destruct ws as [w|]; cbn [option_map].
    - apply Gs; [apply Hb; right; right; right; left; eauto|intros v'; jnames Hb].
    - apply get_none. intros v. jnames Hb. }
  assert (get base "SplineType" = Some (JType (type_name (Some c)))) as G5 by (apply Gs; [apply Hb; auto 10|intros v'; jnames Hb]).
  assert (get base "dim" = Some (JInt dim)) as G6 by (apply Gs; [apply Hb; auto 10|intros v'; jnames Hb]).
  clearbody base. clear Hb Gs.
  assert (needs_ws c = match ws with Some _ => true | None => false end) as K2' by now rewrite K2, E4.
  assert (needs_kvs c = match kvs with Some _ => true | None => false end) as K1'
    by (rewrite K1, <- E2; destruct (has_kvs s); easy).
  assert (forall d, get d "dim" = Some (JInt dim) -> get d "SplineType" = Some (JType (type_name (Some c))) ->
     get d "degrees" = Some (JInts degs) -> get d "knot_vectors" = option_map JMat kvs ->
     read_mat b64 dim (get d "control_points") = Some (Some cps) ->
     read_mat b64 1 (get d "weights") = Some (option_map column ws) ->
     json_load_one limit b64 d = Some (Object (Some c) s)) as Fin.
  { intros d X1 X2 X3 X4 X5 X6. unfold json_load_one. rewrite X1, X2, X3, X4, X5, X6, class_named_ok.
    replace (match option_map JMat kvs with Some (JMat k) => Some k | _ => None end) with kvs by (now destruct kvs).
    replace (match option_map column ws with Some w => uncolumn w | None => None end) with ws
      by (destruct ws; cbn; [now rewrite uncolumn_column|easy]).
    rewrite K1', K2'.
    replace (_ || _) with false by (destruct kvs, ws; reflexivity).
    rewrite B1. now rewrite B2. }
  destruct b64.
  - unfold encode at 1. rewrite G2. destruct (needs_ws c) eqn:Kw.
    + destruct ws as [w|]; [|easy]. unfold encode. rewrite get_app_last. cbn [String.eqb Ascii.eqb Bool.eqb].
      rewrite G4. cbn [option_map]. eexists. split; [reflexivity|].
      apply Fin; rewrite ?get_app_last; cbn [String.eqb Ascii.eqb Bool.eqb]; auto.
      * cbn [read_mat]. rewrite reshape_concat by easy. reflexivity.
      * cbn [read_mat]. rewrite reshape_concat; [reflexivity|lia|]. unfold column. apply Forall_forall.
        intros r Hr. apply in_map_iff in Hr as (x & <- & _). reflexivity.
    + destruct ws as [w|]; [easy|]. eexists. split; [reflexivity|].
      apply Fin; rewrite ?get_app_last; cbn [String.eqb Ascii.eqb Bool.eqb]; auto.
      * cbn [read_mat]. rewrite reshape_concat by easy. reflexivity.
      * rewrite G4. reflexivity.
  - eexists. split; [reflexivity|]. apply Fin; auto.
    + rewrite G2. reflexivity.
    + rewrite G4. now destruct ws.
Qed.

Lemma json_roundtrip limit b64 l : Forall own_class l -> Forall (fun o => storable limit (o_core o)) l ->
  exists f, export_json b64 l = Some f /\ load_json limit f = Some l.
Proof.
  intros F1 F2. unfold export_json, load_json.
  assert (exists ds, all_some (map (json_spline b64) l) = Some ds /\
            all_some (map (json_load_one limit b64) ds) = Some l) as (ds & -> & E).
  { induction l as [|o l IH]; [now exists []|]. inversion F1; subst. inversion F2; subst.
    destruct IH as (ds & E1 & E2); auto. destruct (json_one limit b64 o) as (d & D1 & D2); auto.
    exists (d :: ds). cbn [map all_some]. now rewrite D1, E1, D2, E2. }
  eexists. split; [reflexivity|]. exact E.
Qed.
