(** Proofs about gismo files. *)
From Coq Require Import List Arith ZArith Bool QArith Qcanon Lia Permutation Sorting.Sorted.
From Verif Require Import Base BaseRadix BaseQc M_Numpy S_Value M_Core S_Core P_Core M_Files S_Files P_Files
  M_Mfem P_Mfem S_Spline P_Spline P_Bezier M_Boundaries P_Boundaries S_Interfaces M_Patches M_Gismo S_Gismo.
Import ListNotations.
Local Open Scope list_scope.
Local Open Scope nat_scope.

(** * Writing entries *)
Definition puts (l : list (nat * Z)) (t : list Z) : list Z := fold_left (fun t iv => set_nth t (fst iv) (snd iv)) l t.
Lemma puts_length l : forall t, length (puts l t) = length t.
Proof. induction l; intro t; cbn; [easy|]. unfold puts in IHl. now rewrite IHl, set_nth_length. Qed.
Lemma puts_cons a v l t : puts ((a, v) :: l) t = puts l (set_nth t a v). Proof. reflexivity. Qed.
Lemma puts_other l i : forall t, Forall (fun x => fst x < length t) l -> ~ In i (map fst l) ->
  nth i (puts l t) 0%Z = nth i t 0%Z.
Proof.
  induction l as [|[a v] l IH]; intros t F N; [easy|]. inversion F as [|? ? Fa F']; subst. cbn [fst snd] in *.
  rewrite puts_cons, IH.
  - rewrite set_nth_nth by easy. destruct (Nat.eqb_spec i a); [|easy]. cbn in N. subst. tauto.
  - now rewrite set_nth_length.
  - cbn in N. tauto.
Qed.
Lemma puts_in l i v : forall t, Forall (fun x => fst x < length t) l -> NoDup (map fst l) -> In (i, v) l ->
  nth i (puts l t) 0%Z = v.
Proof.
  induction l as [|[a w] l IH]; intros t F N H; [easy|]. inversion N as [|? ? Na N']; subst.
  inversion F as [|? ? Fa F']; subst. cbn [fst snd] in *. rewrite puts_cons. destruct H as [E|H].
  - inversion E; subst. rewrite puts_other; [|now rewrite set_nth_length|easy].
    rewrite set_nth_nth by easy. now rewrite Nat.eqb_refl.
  - apply IH; auto. now rewrite set_nth_length.
Qed.

Lemma py_index_of_nat n i : i < n -> py_index n (Z.of_nat i) = Some i.
Proof.
  intros H. unfold py_index. destruct (Z.ltb_spec (Z.of_nat i) 0); [lia|].
  destruct (Z.leb_spec 0 (Z.of_nat i)); [|lia]. destruct (Z.ltb_spec (Z.of_nat i) (Z.of_nat n)); [|lia]. cbn. f_equal. lia.
Qed.
Lemma div_lt_n n faces i : i < n * faces -> i / faces < n.
Proof. intros H. apply Nat.div_lt_upper_bound; nia. Qed.
Lemma put_faces n faces t l (v : nat -> Z) : Forall (fun i => i < n * faces) l ->
  put_at n faces t (map (fun i => (Z.of_nat (i / faces), Z.of_nat (i mod faces), v i)) l) =
  Some (puts (map (fun i => (i, v i)) l) t).
Proof.
  intros F. unfold put_at, face_positions. rewrite !map_map. cbn [fst snd].
  assert (all_some (map (fun i => match py_index n (Z.of_nat (i / faces)), py_index faces (Z.of_nat (i mod faces)) with
     | Some p, Some f => Some (p * faces + f) | _, _ => None end) l) = Some l) as ->.
  - induction F as [|i l H F IH]; cbn; [easy|]. assert (faces <> 0) by nia.
    rewrite !py_index_of_nat by (try apply div_lt_n; try apply Nat.mod_upper_bound; easy).
    rewrite IH. do 2 f_equal. pose proof (Nat.div_mod_eq i faces). lia.
  - unfold puts. do 2 f_equal. clear F. induction l as [|i l IH]; cbn; [easy|]. now rewrite <- IH.
Qed.
Lemma put_faces_ext n faces t l w (v : nat -> Z) : Forall (fun i => i < n * faces) l ->
  w = map (fun i => (Z.of_nat (i / faces), Z.of_nat (i mod faces), v i)) l ->
  put_at n faces t w = Some (puts (map (fun i => (i, v i)) l) t).
Proof. intros F ->. now apply put_faces. Qed.

(** * Interfaces *)
Definition firsts (t : list Z) : list nat :=
  filter (fun i => (0 <=? nth i t 0) && (Z.of_nat i <? nth i t 0))%Z (seq 0 (length t)).
Lemma in_firsts t i : In i (firsts t) <-> i < length t /\ (0 <= nth i t 0)%Z /\ (Z.of_nat i < nth i t 0)%Z.
Proof.
  unfold firsts. rewrite filter_In, in_seq, andb_true_iff, Z.leb_le, Z.ltb_lt. lia.
Qed.
Definition other (t : list Z) (i : nat) : nat := Z.to_nat (nth i t 0%Z).
Lemma other_sym t i : symmetric_table t -> i < length t -> (0 <= nth i t 0)%Z ->
  nth i t 0%Z = Z.of_nat (other t i) /\ other t i < length t /\ nth (other t i) t 0%Z = Z.of_nat i.
Proof.
  intros Sy H P. destruct (Sy i H P) as (j & E & L & _ & B). unfold other. rewrite E, Nat2Z.id. auto.
Qed.

Lemma load_interfaces_ok n para_dim t orient : patch_table n (2 * para_dim) t -> 0 < para_dim ->
  (forall l, length (orient l) = 2 * para_dim) -> forall t0, length t0 = length t ->
  exists t1, load_interfaces n (2 * para_dim) index_offset
               (concat (map (interface_row orient) (lines (2 * para_dim) t))) t0 = Some t1 /\
    length t1 = length t0 /\
    forall i, i < length t -> nth i t1 0%Z = if (0 <=? nth i t 0)%Z then nth i t 0%Z else nth i t0 0%Z.
Proof.
  intros [Lt Sy] Hp Lo t0 L0. set (faces := 2 * para_dim) in *. assert (faces <> 0) by lia.
  unfold load_interfaces. rewrite reshape_concat; [|lia|].
  2:{ apply Forall_forall. intros r Hr. apply in_map_iff in Hr. destruct Hr as ([[[p f] q] g] & <- & _).
      unfold interface_row. rewrite app_length, Lo. cbn. lia. }
  assert (Forall (fun i => i < n * faces) (firsts t)) as F1.
  { apply Forall_forall. intros i Hi. apply in_firsts in Hi. lia. }
  assert (Forall (fun i => i < n * faces) (map (other t) (firsts t))) as F2.
  { apply Forall_forall. intros j Hj. apply in_map_iff in Hj. destruct Hj as (i & <- & Hi). apply in_firsts in Hi.
    rewrite <- Lt. apply other_sym; easy || lia. }
  unfold lines. rewrite map_map.
  change (filter (fun i => (0 <=? nth i t 0) && (Z.of_nat i <? nth i t 0))%Z (seq 0 (length t))) with (firsts t).
  rewrite (put_faces_ext n faces t0 (firsts t) _ (fun i => nth i t 0%Z)); [|easy|].
  2:{ rewrite map_map. apply map_ext_in. intros i Hi. apply in_firsts in Hi.
      destruct (other_sym t i Sy) as (E & L & _); [lia|lia|]. unfold interface_row, col. cbn [nth app Nat.add].
      unfold other in E. set (j := Z.to_nat (nth i t 0%Z)) in *. pose proof (Nat.div_mod_eq j faces). unfold index_offset.
      apply f_equal2; [apply f_equal2; lia|]. nia. }
  rewrite (put_faces_ext n faces _ (map (other t) (firsts t)) _ (fun j => nth j t 0%Z)); [|easy|].
  2:{ rewrite !map_map. apply map_ext_in. intros i Hi. apply in_firsts in Hi.
      destruct (other_sym t i Sy) as (E & L & B); [lia|lia|]. unfold interface_row, col. cbn [nth app Nat.add].
      rewrite B. unfold other.
      pose proof (Nat.div_mod_eq i faces). unfold index_offset.
      apply f_equal2; [apply f_equal2; lia|]. nia. }
  eexists. split; [reflexivity|]. split; [now rewrite !puts_length|].
  assert (NoDup (firsts t)) as N1 by (apply NoDup_filter, seq_NoDup).
  assert (NoDup (map (other t) (firsts t))) as N2.
  { apply NoDup_map_inv_dom; [|easy]. intros a b Ha Hb E. apply in_firsts in Ha, Hb.
    destruct (other_sym t a Sy) as (_ & _ & A); [lia|lia|]. destruct (other_sym t b Sy) as (_ & _ & B); [lia|lia|].
    rewrite E in A. lia. }
  rewrite !map_map in *. 
  assert (forall l (u : list Z), length u = length t -> Forall (fun i => i < n * faces) l ->
            Forall (fun x : nat * Z => fst x < length u) (map (fun i => (i, nth i t 0%Z)) l)) as FF.
  { intros l u Hu H1. apply Forall_forall. intros x Hx. apply in_map_iff in Hx. destruct Hx as (i & <- & Hi). cbn.
    rewrite Forall_forall in H1. specialize (H1 i Hi). lia. }
  assert (map (fun x => (other t x, nth (other t x) t 0%Z)) (firsts t) =
          map (fun i => (i, nth i t 0%Z)) (map (other t) (firsts t))) as -> by now rewrite map_map.
  assert (forall l, map fst (map (fun i => (i, nth i t 0%Z)) l) = l) as MF.
  { intro l. rewrite map_map. cbn. apply map_id. }
  intros i Hi. destruct (in_dec Nat.eq_dec i (map (other t) (firsts t))) as [I2|I2].
  - rewrite (puts_in _ i (nth i t 0%Z)).
    + apply in_map_iff in I2. destruct I2 as (k & <- & Hk). apply in_firsts in Hk.
      destruct (other_sym t k Sy) as (_ & _ & A); [lia|lia|]. rewrite A.
      destruct (Z.leb_spec 0 (Z.of_nat k)); [easy|lia].
    + apply FF; [|easy]. now rewrite puts_length.
    + now rewrite MF.
    + apply in_map_iff. eauto.
  - rewrite puts_other; [|apply FF; [now rewrite puts_length|easy]|now rewrite MF].
    destruct (in_dec Nat.eq_dec i (firsts t)) as [I1|I1].
    + rewrite (puts_in _ i (nth i t 0%Z)); [|now apply FF|now rewrite MF|apply in_map_iff; eauto].
      apply in_firsts in I1. destruct (Z.leb_spec 0 (nth i t 0%Z)); [easy|lia].
    + rewrite puts_other; [|now apply FF|now rewrite MF].
      destruct (Z.leb_spec 0 (nth i t 0%Z)) as [P|P]; [|easy]. exfalso.
      destruct (Sy i Hi P) as (j & E & Lj & Nj & B). destruct (Nat.lt_ge_cases i j).
      * apply I1, in_firsts. lia.
      * apply I2, in_map_iff. exists j. split; [unfold other; rewrite B; lia|apply in_firsts; lia].
Qed.

(** * Boundaries *)
Lemma load_boundaries_ok n faces t : length t = n * faces -> 0 < faces -> forall m a t0, length t0 = length t ->
  exists t1, load_boundaries n faces index_offset (Z.of_nat (S a))
      (map (fun l => text (concat (map (face_row faces) l)))
           (map (fun k => where_is (Z.eqb (- Z.of_nat (S k))) t) (seq a m))) t0 = Some t1 /\
    length t1 = length t0 /\
    forall i, i < length t ->
      nth i t1 0%Z = if ((- Z.of_nat (a + m) <=? nth i t 0) && (nth i t 0 <=? - Z.of_nat (S a)))%Z
                     then nth i t 0%Z else nth i t0 0%Z.
Proof.
  intros Lt Hf. induction m as [|m IH]; intros a t0 L0.
  - cbn [seq map load_boundaries]. eexists. split; [reflexivity|]. split; [easy|]. intros i Hi.
    destruct (Z.leb_spec (- Z.of_nat (a + 0)) (nth i t 0%Z)), (Z.leb_spec (nth i t 0%Z) (- Z.of_nat (S a))); cbn [andb]; easy || lia.
  - cbn [seq map]. set (w := where_is (Z.eqb (- Z.of_nat (S a))) t).
    assert (forall i, In i w <-> i < length t /\ nth i t 0%Z = (- Z.of_nat (S a))%Z) as Hw.
    { intros i. unfold w. rewrite in_where, Z.eqb_eq. intuition. }
    assert (exists t', length t' = length t /\
      (forall i, i < length t -> nth i t' 0%Z = if (nth i t 0 =? - Z.of_nat (S a))%Z then nth i t 0%Z else nth i t0 0%Z) /\
      load_boundaries n faces index_offset (Z.of_nat (S a))
        (text (concat (map (face_row faces) w)) ::
           map (fun l => text (concat (map (face_row faces) l))) (map (fun k => where_is (Z.eqb (- Z.of_nat (S k))) t) (seq (S a) m))) t0 =
      load_boundaries n faces index_offset (Z.of_nat (S (S a)))
        (map (fun l => text (concat (map (face_row faces) l))) (map (fun k => where_is (Z.eqb (- Z.of_nat (S k))) t) (seq (S a) m))) t')
      as (t' & Lt' & Ht' & E).
    { destruct w as [|i0 w'] eqn:Ew.
      - exists t0. split; [easy|]. split.
        + intros i Hi. destruct (Z.eqb_spec (nth i t 0%Z) (- Z.of_nat (S a))) as [e|e]; [|easy]. exfalso. apply (Hw i). auto.
        + cbn [map concat text load_boundaries]. f_equal. lia.
      - rewrite <- Ew in *. exists (puts (map (fun i => (i, - Z.of_nat (S a))%Z) w) t0).
        assert (Forall (fun x : nat * Z => fst x < length t0) (map (fun i => (i, - Z.of_nat (S a))%Z) w)) as F.
        { apply Forall_forall. intros x Hx. apply in_map_iff in Hx. destruct Hx as (i & <- & Hi). cbn. apply Hw in Hi. lia. }
        assert (map fst (map (fun i => (i, - Z.of_nat (S a))%Z) w) = w) as MF by (rewrite map_map; cbn; apply map_id).
        split; [now rewrite puts_length|]. split.
        + intros i Hi. destruct (Z.eqb_spec (nth i t 0%Z) (- Z.of_nat (S a))) as [e|e].
          * rewrite e. apply puts_in; [easy| |].
            -- rewrite MF. apply NoDup_filter, seq_NoDup.
            -- apply in_map_iff. exists i. split; [easy|]. now apply Hw.
          * apply puts_other; [easy|]. rewrite MF. intros I. apply Hw in I. tauto.
        + assert (text (concat (map (face_row faces) w)) = Some (concat (map (face_row faces) w))) as -> by now rewrite Ew.
          cbn [load_boundaries]. rewrite reshape_concat; [|lia|].
          2:{ apply Forall_forall. intros r Hr. apply in_map_iff in Hr. now destruct Hr as (? & <- & _). }
          rewrite (put_faces_ext n faces t0 w _ (fun _ => - Z.of_nat (S a))%Z).
          * f_equal. lia.
          * apply Forall_forall. intros i Hi. apply Hw in Hi. lia.
          * rewrite map_map. apply map_ext. intro i. unfold face_row, col, index_offset. cbn [nth]. f_equal. f_equal; lia. }
    rewrite E. destruct (IH (S a) t' Lt') as (t1 & E1 & L1 & H1). exists t1. split; [exact E1|]. split; [lia|].
    intros i Hi. rewrite (H1 i Hi), (Ht' i Hi).
    destruct (Z.eqb_spec (nth i t 0%Z) (- Z.of_nat (S a))), (Z.leb_spec (- Z.of_nat (S a + m)) (nth i t 0%Z)),
      (Z.leb_spec (nth i t 0%Z) (- Z.of_nat (S (S a)))), (Z.leb_spec (- Z.of_nat (a + S m)) (nth i t 0%Z)),
      (Z.leb_spec (nth i t 0%Z) (- Z.of_nat (S a))); cbn [andb]; try easy; lia.
Qed.

Lemma text_cases {A} (l : list A) : text l = None /\ l = [] \/ text l = Some l.
Proof. destruct l; cbn; auto. Qed.

Lemma table_roundtrip n para_dim t orient : 0 < n -> 0 < para_dim -> patch_table n (2 * para_dim) t ->
  (forall l, length (orient l) = 2 * para_dim) ->
  exists f, export_table para_dim orient true t = Some f /\ load_table f = Some t /\ g_para_dim f = para_dim.
Proof.
  intros Hn Hp V Lo. pose proof V as [Lt Sy].
  assert (exists z r, t = z :: r) as (z & r & Et). { destruct t as [|z r]; [cbn in Lt; nia|eauto]. }
  set (F := GTable para_dim (index_offset, Z.of_nat (length t / (2 * para_dim)) - 1 + index_offset)%Z
              (text (concat (map (interface_row orient) (lines (2 * para_dim) t))))
              (map (fun l => text (concat (map (face_row (2 * para_dim)) l))) (boundaries t))).
  exists F. split; [|split; [|easy]].
  - unfold export_table. rewrite Et at 1. unfold F. do 2 f_equal.
    destruct (where_is (fun v => 0 <=? v)%Z t) as [|w ws] eqn:W; [|easy].
    assert (lines (2 * para_dim) t = []) as ->; [|easy].
    unfold lines. 
    change (filter (fun i => (0 <=? nth i t 0) && (Z.of_nat i <? nth i t 0))%Z (seq 0 (length t))) with (firsts t).
    destruct (firsts t) as [|k ks] eqn:Fk; [easy|]. exfalso.
    assert (In k (firsts t)) as Ik by (rewrite Fk; now left). apply in_firsts in Ik.
    assert (In k (where_is (fun v => 0 <=? v)%Z t)) as Iw by (apply in_where; rewrite Z.leb_le; lia).
    now rewrite W in Iw.
  - unfold load_table, F. cbn [g_range g_para_dim g_interfaces g_boundaries fst snd].
    rewrite Lt, Nat.div_mul by lia. destruct (Z.ltb_spec (Z.of_nat n - 1 + index_offset - index_offset + 1) 0); [lia|].
    replace (Z.to_nat (Z.of_nat n - 1 + index_offset - index_offset + 1)) with n by lia.
    rewrite (Nat.mul_comm para_dim 2). set (t0 := repeat invalid_integer (n * (2 * para_dim))).
    assert (length t0 = length t) as L0 by (unfold t0; now rewrite repeat_length).
    destruct (load_interfaces_ok n para_dim t orient V Hp Lo t0 L0) as (t1 & E1 & L1 & H1).
    assert (match text (concat (map (interface_row orient) (lines (2 * para_dim) t))) with
            | Some txt => load_interfaces n (2 * para_dim) index_offset txt t0
            | None => Some t0
            end = Some t1) as ->.
    { destruct (text_cases (concat (map (interface_row orient) (lines (2 * para_dim) t)))) as [[-> En]| ->]; [|exact E1].
      rewrite En in E1. unfold load_interfaces in E1. unfold reshape in E1.
      destruct (Nat.eqb_spec (2 * para_dim + 4) 0); [lia|]. cbn [length] in E1. rewrite Nat.mod_0_l in E1 by lia.
      cbn in E1. exact E1. }
    unfold boundaries. destruct (load_boundaries_ok n (2 * para_dim) t Lt ltac:(lia) (Z.to_nat (- table_min t)) 0 t1 ltac:(lia))
      as (t2 & E2 & L2 & H2).
    change (Z.of_nat 1) with 1%Z in E2. rewrite E2. f_equal.
    apply nth_ext with (d := 0%Z) (d' := 0%Z); [lia|]. intros i Hi. rewrite L2, L1, L0 in Hi.
    rewrite (H2 i Hi), (H1 i Hi). pose proof (table_min_le t i Hi).
    destruct (Z.leb_spec (- Z.of_nat (0 + Z.to_nat (- table_min t))) (nth i t 0%Z)), (Z.leb_spec (nth i t 0%Z) (- Z.of_nat 1)),
      (Z.leb_spec 0 (nth i t 0%Z)); cbn [andb]; try easy; lia.
Qed.

(** * Geometry *)
Lemma with_knots_of s : knots_of s (with_knots s).
Proof.
  unfold knots_of, with_knots. cbn. split; [easy|]. split; [easy|].
  induction (sp_axes s) as [|[p|p kv] l IH]; cbn; constructor; auto.
Qed.
Lemma with_knots_storable limit s : storable limit s -> exists degs kvs cps ws,
  consistent degs (Some kvs) cps ws /\ supported limit degs (Some kvs) cps /\
  has_properties (with_knots s) degs (Some kvs) cps ws.
Proof.
  intros (degs & kvs & cps & ws & (C1 & C2 & C3 & C4 & C5) & (U1 & U2) & (H1 & H2 & H3 & H4)). destruct kvs as [kvs|].
  - exists degs, kvs, cps, ws. split; [|split].
    + exact (conj C1 (conj C2 (conj C3 (conj C4 C5)))).
    + split; auto.
    + refine (conj _ (conj _ (conj H3 H4))).
      * rewrite <- H1. cbn. rewrite map_map. apply map_ext. now intros [|].
      * cbn. clear - H2. induction H2 as [|a kv ax kvs (p & ->) F IH]; cbn; constructor; eauto.
  - exists degs, (map (fun a => unit_knots (ax_degree a)) (sp_axes s)), cps, ws. split; [|split].
    + refine (conj C1 (conj _ (conj C3 (conj _ C5)))).
      * rewrite <- H1. clear. induction (sp_axes s); cbn; constructor; auto. apply unit_knots_fit.
      * rewrite C4. rewrite <- H1. clear. induction (sp_axes s) as [|a l IH]; [easy|]. cbn [map wanted].
        rewrite unit_knots_length, IH. f_equal. lia.
    + split; [easy|]. apply Forall_map, Forall_forall. intros a _. apply unit_knots_bound.
    + refine (conj _ (conj _ (conj H3 H4))).
      * rewrite <- H1. cbn. rewrite map_map. apply map_ext. now intros [|].
      * cbn. clear - H2. induction H2 as [|a ax (p & ->) F IH]; cbn; constructor; eauto.
Qed.
Definition loaded_class (s : spline) : cls := match sp_weights s with None => CBSpline | Some _ => CNurbs end.
Lemma geometry_ok limit o : own_class o -> storable limit (o_core o) ->
  exists g, export_geometry o = Some g /\
    load_geometry limit g = Some (Object (Some (loaded_class (o_core o))) (with_knots (o_core o))).
Proof.
  destruct o as [oc s]. intros (c & Ec & R) St. cbn [o_cls o_core] in *. subst oc.
  destruct (with_knots_storable limit s St) as (degs & kvs & cps & ws & C & U & H).
  destruct (core_props _ degs (Some kvs) cps ws C H) as (E1 & E2 & E3 & E4 & E5 & E6 & _).
  unfold export_geometry. cbn [o_cls o_core]. eexists. split; [reflexivity|].
  unfold load_geometry. cbn [g_dim g_coefs g_weights g_degrees g_knots].
  assert (core_kvs (with_knots s) = kvs) as Ek by (destruct (has_kvs (with_knots s)); congruence).
  pose proof C as (_ & F & (dim & D1 & D2) & Wn & W).
  assert (cps <> []) as Nc. { intros X. rewrite X in Wn. cbn [length] in Wn. apply wanted_pos_kvs in F. lia. }
  rewrite E3, (dim_of_uniform dim cps) by easy. rewrite reshape_concat by easy.
  rewrite E1, E4, Ek. unfold loaded_class. change (sp_weights s) with (sp_weights (with_knots s)). rewrite E4.
  set (cl := match ws with Some _ => CNurbs | None => CBSpline end).
  assert (built limit cl (Inputs (Some degs) (Some kvs) (Some cps) ws) (with_knots s)) as (st & B1 & B2).
  { apply (construct_accepts limit cl _ degs (Some kvs) cps ws); [|auto]. split; [easy|]. split; [easy|].
    unfold cl. destruct ws; cbn; repeat split; discriminate. }
  replace (match ws with Some _ => CNurbs | None => CBSpline end) with cl by reflexivity.
  rewrite B1. cbn [option_map]. now rewrite B2.
Qed.
Lemma knots_values s t us d : knots_of s t -> sp_value t us d = sp_value s us d.
Proof.
  intros (E1 & E2 & F).
  assert (sp_res t = sp_res s) as Er.
  { unfold sp_res. clear - F. induction F as [|a b l l' H F IH]; cbn; [easy|]. now rewrite (nurbs_of_n _ _ H), IH. }
  assert (forall c, tensor (sp_basis (sp_axes t) us) c = tensor (sp_basis (sp_axes s) us) c) as Et.
  { intros c. symmetry. apply tensor_ext; [|easy]. unfold sp_basis. clear - F. revert us.
    induction F as [|a b l l' H F IH]; intros [|u us]; cbn; constructor; auto. cbn [fst snd].
    split; [symmetry; now apply nurbs_of_n|]. intros i Hi. destruct a as [p|p kv]; subst b; [|easy].
    cbn [ax_n] in Hi. symmetry. now apply bezier_knots_fun. }
  unfold sp_value. rewrite E1, E2, Er. destruct (sp_weights s); now rewrite !Et.
Qed.
Lemma file_roundtrip limit para_dim orient t l : l <> [] -> 0 < para_dim ->
  patch_table (length l) (2 * para_dim) t -> (forall x, length (orient x) = 2 * para_dim) ->
  Forall (fun o => own_class o /\ storable limit (o_core o) /\ length (sp_axes (o_core o)) = para_dim) l ->
  exists f, export_gismo orient true para_dim t l = Some f /\
    load_gismo limit f = Some (t, map (fun o => Object (Some (loaded_class (o_core o))) (with_knots (o_core o))) l).
Proof.
  intros Nl Hp V Lo F. assert (0 < length l) as Hl by (destruct l; cbn; [easy|lia]).
  destruct (table_roundtrip (length l) para_dim t orient Hl Hp V Lo) as (f & E1 & E2 & E3).
  set (back := map (fun o => Object (Some (loaded_class (o_core o))) (with_knots (o_core o))) l).
  assert (exists gs, all_some (map export_geometry l) = Some gs /\ all_some (map (load_geometry limit) gs) = Some back)
    as (gs & G1 & G2).
  { unfold back. clear - F. induction F as [|o l (O & St & _) F (gs & G1 & G2)]; [now exists []|].
    destruct (geometry_ok limit o O St) as (g & A & B). exists (g :: gs). cbn [map all_some]. now rewrite A, G1, B, G2. }
  unfold export_gismo. rewrite E1, G1. eexists. split; [reflexivity|].
  unfold load_gismo. cbn [g_table g_patches]. rewrite E2, G2, E3. unfold back.
  destruct l as [|o l]; [easy|]. cbn [map]. rewrite (proj1 V). inversion F as [|? ? (_ & _ & La) _]; subst.
  match goal with |- (if ?b then _ else _) = _ => assert (b = true) as -> end; [|easy].
  cbn [o_core with_knots sp_axes length]. rewrite !map_length. apply andb_true_iff. rewrite !Nat.eqb_eq. lia.
Qed.

(** * Support matrix *)
Section Lex.
Variable key : nat -> nat.
Definition lex (a b : nat) : Prop := key a < key b \/ key a = key b /\ a < b.
Lemma arg_insert_in i l x : In x (arg_insert key i l) <-> x = i \/ In x l.
Proof.
  induction l as [|j l IH]; cbn; [intuition|]. destruct (key i <=? key j); cbn; [intuition|]. rewrite IH. intuition.
Qed.
Lemma arg_insert_lex i l : Forall (fun j => i < j) l -> StronglySorted lex l -> StronglySorted lex (arg_insert key i l).
Proof.
  induction l as [|j l IH]; intros F H; cbn; [repeat constructor|]. inversion F as [|? ? Fj F']; subst.
  inversion H as [|? ? H' A]; subst. destruct (Nat.leb_spec (key i) (key j)).
  - constructor; [easy|]. constructor; [unfold lex; lia|]. rewrite Forall_forall in *. intros x Hx.
    specialize (A x Hx). specialize (F' x Hx). unfold lex in *. lia.
  - constructor; [auto|]. apply Forall_forall. intros x Hx. apply arg_insert_in in Hx. destruct Hx as [->|Hx].
    + unfold lex. lia.
    + rewrite Forall_forall in A. auto.
Qed.
Lemma fold_insert_lex n : forall a, StronglySorted lex (fold_right (arg_insert key) [] (seq a n)) /\
  forall x, In x (fold_right (arg_insert key) [] (seq a n)) <-> a <= x < a + n.
Proof.
  induction n as [|n IH]; intros a; cbn [seq fold_right]; [split; [constructor|cbn; lia]|].
  destruct (IH (S a)) as [A B]. split.
  - apply arg_insert_lex; [|easy]. apply Forall_forall. intros x Hx. apply B in Hx. lia.
  - intros x. rewrite arg_insert_in, B. lia.
Qed.
Lemma lex_unique l : StronglySorted lex l -> forall l', StronglySorted lex l' -> (forall x, In x l <-> In x l') -> l = l'.
Proof.
  induction 1 as [|a l H IH A]; intros l' H' E.
  - destruct l' as [|b l']; [easy|]. exfalso. apply (E b). now left.
  - destruct H' as [|b l' H' B]; [exfalso; apply (E a); now left|].
    rewrite Forall_forall in A, B. assert (a = b) as <-.
    { destruct (proj1 (E a) (or_introl eq_refl)) as [|Ha]; [easy|].
      destruct (proj2 (E b) (or_introl eq_refl)) as [|Hb]; [easy|].
      specialize (A b Hb). specialize (B a Ha). unfold lex in *. lia. }
    f_equal. apply IH; [easy|]. intros x. split; intros Hx.
    + destruct (proj1 (E x) (or_intror Hx)) as [<-|]; [|easy]. specialize (A a Hx). unfold lex in A. lia.
    + destruct (proj2 (E x) (or_intror Hx)) as [<-|]; [|easy]. specialize (B a Hx). unfold lex in B. lia.
Qed.
Definition group (n v : nat) : list nat := filter (fun i => key i =? v) (seq 0 n).
Lemma groups_sorted n m : forall a, StronglySorted lex (flat_map (group n) (seq a m)).
Proof.
  assert (forall f n b, StronglySorted lt (filter f (seq b n))) as S1.
  { intros f k. induction k as [|k IH]; intros b; cbn; [constructor|]. destruct (f b); [|auto]. constructor; [auto|].
    apply Forall_forall. intros x Hx. apply filter_In in Hx. destruct Hx as [Hx _]. apply in_seq in Hx. lia. }
  induction m as [|m IH]; intros a; cbn; [constructor|].
  assert (forall l, StronglySorted lt l -> (forall x, In x l -> key x = a) -> forall r, StronglySorted lex r ->
            (forall x, In x r -> a < key x) -> StronglySorted lex (l ++ r)) as S2.
  { induction 1 as [|x l H IHl A]; intros K r Hr B; [easy|]. cbn. constructor; [apply IHl; cbn in K; auto|].
    apply Forall_forall. intros y Hy. apply in_app_or in Hy. assert (key x = a) as Kx by (apply K; now left).
    destruct Hy as [Hy|Hy].
    - right. rewrite Forall_forall in A. split; [rewrite Kx; symmetry; apply K; now right|auto].
    - left. rewrite Kx. auto. }
  apply S2; [apply S1| |auto|].
  - intros x Hx. apply filter_In in Hx. now apply Nat.eqb_eq.
  - intros x Hx. apply in_flat_map in Hx. destruct Hx as (v & Hv & Hx). apply filter_In in Hx. destruct Hx as [_ Hx].
    apply Nat.eqb_eq in Hx. apply in_seq in Hv. lia.
Qed.
End Lex.

Lemma list_max_le l x : In x l -> x <= list_max l.
Proof. intros H. pose proof (proj1 (list_max_le l (list_max l)) (le_n _)) as F. rewrite Forall_forall in F. auto. Qed.

Definition key_of (keys : list nat) (i : nat) : nat := nth i keys 0.
Lemma argsort_groups keys :
  argsort keys = flat_map (group (key_of keys) (length keys)) (seq 0 (list_max keys + 1)).
Proof.
  unfold argsort. destruct (fold_insert_lex (key_of keys) (length keys) 0) as [A B].
  apply (lex_unique (key_of keys)); [exact A|apply groups_sorted|]. intros x. rewrite (B x), in_flat_map. split.
  - intros H. exists (key_of keys x). split.
    + apply in_seq. enough (key_of keys x <= list_max keys) by lia. apply list_max_le. apply nth_In. lia.
    + unfold group. rewrite filter_In, in_seq, Nat.eqb_eq. lia.
  - intros (v & _ & H). unfold group in H. rewrite filter_In, in_seq in H. lia.
Qed.
Lemma map_key_seq keys r : r <= length keys -> map (key_of keys) (seq 0 r) = firstn r keys.
Proof.
  intros H. apply (nth_ext _ _ 0 0).
  - rewrite map_length, seq_length, firstn_length. lia.
  - intros k Hk. rewrite map_length, seq_length in Hk. rewrite (nth_indep _ 0 (key_of keys 0)) by now rewrite map_length, seq_length.
    rewrite (map_nth (key_of keys)), seq_nth by easy. cbn. unfold key_of.
    rewrite <- (firstn_skipn r keys) at 1. apply app_nth1. rewrite firstn_length. lia.
Qed.
Lemma filter_map_length {A B} (f : A -> B) g l : length (filter g (map f l)) = length (filter (fun x => g (f x)) l).
Proof. induction l as [|x l IH]; cbn; [easy|]. destruct (g (f x)); cbn; now rewrite IH. Qed.
Lemma group_length keys v : length (group (key_of keys) (length keys) v) = occurrences v keys.
Proof.
  unfold group, occurrences. pose proof (map_key_seq keys (length keys) (le_n _)) as E. rewrite firstn_all in E.
  replace (filter (Nat.eqb v) keys) with (filter (Nat.eqb v) (map (key_of keys) (seq 0 (length keys)))) by now rewrite E.
  rewrite filter_map_length. f_equal. apply filter_ext. intro x. apply Nat.eqb_sym.
Qed.
Lemma occurrences_count v l : occurrences v l = count_occ Nat.eq_dec l v.
Proof.
  unfold occurrences. induction l as [|x l IH]; cbn; [easy|].
  destruct (Nat.eqb_spec v x), (Nat.eq_dec x v); cbn; congruence.
Qed.

(** counter - repeat(index_shift, bincount): 0, 1, .. for every patch *)
Lemma counter_blocks b : forall s,
  map (fun ab => Z.of_nat (fst ab) - Z.of_nat (snd ab))%Z
      (combine (seq s (list_sum b)) (repeat_each (cumsum s (0 :: removelast b)) b)) =
  concat (map (fun c => map Z.of_nat (seq 0 c)) b).
Proof.
  induction b as [|x b IH]; intros s; [easy|].
  assert (cumsum s (0 :: removelast (x :: b)) = s :: match b with [] => [] | _ => cumsum (s + x) (0 :: removelast b) end) as ->.
  { cbn [cumsum]. rewrite Nat.add_0_r. destruct b as [|y b]; [easy|].
    change (removelast (x :: y :: b)) with (x :: removelast (y :: b)). cbn [cumsum]. now rewrite Nat.add_0_r. }
  assert (repeat_each (s :: match b with [] => [] | _ => cumsum (s + x) (0 :: removelast b) end) (x :: b) =
          repeat s x ++ repeat_each (cumsum (s + x) (0 :: removelast b)) b) as ->.
  { unfold repeat_each. cbn [combine map concat fst snd]. f_equal. destruct b; [|easy]. now destruct (cumsum _ _). }
  change (list_sum (x :: b)) with (x + list_sum b). rewrite seq_app.
  assert (forall (A B : Type) (l1 : list A) (r1 : list B) l2 r2, length l1 = length r1 ->
            combine (l1 ++ l2) (r1 ++ r2) = combine l1 r1 ++ combine l2 r2) as CA.
  { intros A B l1. induction l1 as [|y l1 IHl]; intros [|z r1] l2 r2 L; cbn in *; try easy. f_equal. apply IHl. lia. }
  rewrite CA by now rewrite seq_length, repeat_length. rewrite map_app, IH. cbn [map concat]. f_equal.
  clear. assert (forall k, map (fun ab => Z.of_nat (fst ab) - Z.of_nat (snd ab))%Z (combine (seq (s + k) x) (repeat s x)) =
                           map Z.of_nat (seq k x)) as H.
  { induction x as [|x IH]; intros k; cbn; [easy|]. f_equal; [lia|]. rewrite <- IH. now rewrite Nat.add_succ_r. }
  specialize (H 0). now rewrite Nat.add_0_r in H.
Qed.

Lemma combine_flat (f g : nat -> list nat) l : (forall v, length (f v) = length (g v)) ->
  combine (flat_map f l) (map Z.of_nat (flat_map g l)) = flat_map (fun v => combine (f v) (map Z.of_nat (g v))) l.
Proof.
  intros E. induction l as [|v l IH]; cbn; [easy|]. rewrite map_app, <- IH.
  specialize (E v). revert E. generalize (g v). induction (f v) as [|x l1 IHl]; intros [|y l2] E; cbn in *; try easy.
  f_equal. apply IHl. lia.
Qed.
Lemma list_sum_occurrences keys m : Forall (fun k => k < m) keys -> list_sum (map (fun v => occurrences v keys) (seq 0 m)) = length keys.
Proof.
  induction keys as [|k keys IH]; intros F.
  - cbn. induction (seq 0 m); cbn; auto.
  - inversion F as [|? ? Hk F']; subst. specialize (IH F'). cbn [length]. rewrite <- IH. clear - Hk.
    assert (forall l, NoDup l -> list_sum (map (fun v => occurrences v (k :: keys)) l) =
              (if in_dec Nat.eq_dec k l then 1 else 0) + list_sum (map (fun v => occurrences v keys) l)) as H.
    { induction 1 as [|v l Nv N IH]; cbn [map list_sum]; [easy|].
      change (list_sum (?a :: ?b)) with (a + list_sum b). rewrite IH. unfold occurrences at 1. cbn [filter].
      destruct (Nat.eqb_spec v k) as [->|Ne]; cbn [length].
      - destruct (in_dec Nat.eq_dec k l); [easy|]. destruct (in_dec Nat.eq_dec k (k :: l)) as [|n']; [|exfalso; apply n'; now left].
        fold (occurrences k keys). cbn. lia.
      - fold (occurrences v keys). destruct (in_dec Nat.eq_dec k l) as [i1|i1], (in_dec Nat.eq_dec k (v :: l)) as [i2|i2]; cbn; try lia;
          exfalso; cbn in i2; intuition. }
    rewrite H by apply seq_NoDup. destruct (in_dec Nat.eq_dec k (seq 0 m)) as [|n']; [easy|]. exfalso. apply n', in_seq. lia.
Qed.
Lemma in_combine_filter f n r : r < n -> f r = true ->
  In (r, Z.of_nat (length (filter f (seq 0 r)))) (combine (filter f (seq 0 n)) (map Z.of_nat (seq 0 (length (filter f (seq 0 n)))))).
Proof.
  intros Hr Fr. replace n with (r + (1 + (n - r - 1))) by lia. rewrite seq_app, filter_app. cbn [seq filter Nat.add]. rewrite Fr.
  generalize (filter f (seq (S r) (n - r - 1))). intros l2. generalize (filter f (seq 0 r)). intros l1. clear.
  assert (forall a, In (r, Z.of_nat (a + length l1)) (combine (l1 ++ r :: l2) (map Z.of_nat (seq a (length (l1 ++ r :: l2)))))) as H.
  { induction l1 as [|x l1 IH]; intros a; cbn [app length seq map combine]; [left; do 2 f_equal; lia|]. right.
    replace (a + S (length l1)) with (S a + length l1) by lia. apply IH. }
  apply (H 0).
Qed.
Lemma map_fst_combine {A B} (l : list A) (r : list B) : length l = length r -> map fst (combine l r) = l.
Proof. revert r. induction l as [|x l IH]; intros [|y r] L; cbn in *; try easy. f_equal. apply IH. lia. Qed.
Lemma map_snd_combine {A B} (l : list A) (r : list B) : length l = length r -> map snd (combine l r) = r.
Proof. revert r. induction l as [|x l IH]; intros [|y r] L; cbn in *; try easy. f_equal. apply IH. lia. Qed.

Lemma counters_spec keys : length (counters keys) = length keys /\
  forall r, r < length keys -> nth r (counters keys) 0%Z = Z.of_nat (count_occ Nat.eq_dec (firstn r keys) (nth r keys 0)).
Proof.
  unfold counters. set (M := list_max keys + 1).
  assert (Forall (fun k => k < M) keys) as FM.
  { apply Forall_forall. intros k Hk. pose proof (list_max_le keys k Hk). unfold M. lia. }
  assert (list_sum (bincount keys) = length keys) as Sum by (unfold bincount; fold M; now apply list_sum_occurrences).
  pose proof (counter_blocks (bincount keys) 0) as CB. rewrite Sum in CB. rewrite CB.
  assert (concat (map (fun c => map Z.of_nat (seq 0 c)) (bincount keys)) =
          map Z.of_nat (flat_map (fun v => seq 0 (occurrences v keys)) (seq 0 M))) as ->.
  { unfold bincount. fold M. rewrite map_map. induction (seq 0 M) as [|v l IH]; cbn; [easy|]. now rewrite map_app, IH. }
  rewrite argsort_groups. fold M.
  rewrite combine_flat by (intro v; now rewrite group_length, seq_length).
  set (l := flat_map _ _). fold (puts l (repeat 0%Z (length keys))).
  split; [now rewrite puts_length, repeat_length|]. intros r Hr.
  assert (map fst l = argsort keys) as Fl.
  { rewrite argsort_groups. fold M. unfold l. induction (seq 0 M) as [|v q IH]; cbn [flat_map]; [easy|].
    rewrite map_app, IH. f_equal. apply map_fst_combine. now rewrite map_length, seq_length, group_length. }
  apply puts_in.
  - rewrite repeat_length. apply Forall_map with (f := fst) (P := fun x => x < length keys). rewrite Fl.
    apply perm_bound, argsort_perm.
  - rewrite Fl. apply (Permutation_NoDup (Permutation_sym (argsort_perm keys))), seq_NoDup.
  - unfold l. apply in_flat_map. exists (nth r keys 0). split.
    + apply in_seq. rewrite Forall_forall in FM. specialize (FM _ (nth_In keys 0 Hr)). lia.
    + rewrite <- group_length. unfold group. rewrite <- occurrences_count.
      replace (occurrences (nth r keys 0) (firstn r keys)) with
        (length (filter (fun i => key_of keys i =? nth r keys 0) (seq 0 r))).
      * apply in_combine_filter; [easy|]. apply Nat.eqb_refl.
      * unfold occurrences. rewrite <- map_key_seq by lia. rewrite filter_map_length. f_equal. apply filter_ext.
        intro x. apply Nat.eqb_sym.
Qed.

Definition block (j s : nat) (f : list bool) : list (nat * nat) :=
  flat_map (fun iv : nat * bool => if snd iv then [(fst iv, j)] else []) (combine (seq s (length f)) f).
Lemma block_in j f : forall s i j', In (i, j') (block j s f) <-> j' = j /\ s <= i /\ nth (i - s) f false = true.
Proof.
  induction f as [|b f IH]; intros s i j'; unfold block; cbn [length seq combine flat_map fst snd].
  - split; [easy|]. intros (_ & _ & H). now destruct (i - s).
  - fold (block j (S s) f). rewrite in_app_iff, IH. destruct (Nat.eq_dec i s) as [->|Ne].
    + rewrite Nat.sub_diag. cbn [nth]. destruct b; cbn; split; intros H.
      * destruct H as [[E|[]]|(? & ? & ?)]; [inversion E; subst; auto|lia].
      * left. left. destruct H as (-> & _). reflexivity.
      * destruct H as [[]|(? & ? & ?)]; lia.
      * destruct H as (_ & _ & ?). discriminate.
    + split; intros H.
      * destruct H as [H|(-> & L & H)]; [destruct b; [|easy]; destruct H as [E|[]]; inversion E; congruence|].
        split; [easy|]. split; [lia|]. now replace (i - s) with (S (i - S s)) by lia.
      * destruct H as (-> & L & H). right. split; [easy|]. split; [lia|].
        replace (i - s) with (S (i - S s)) in H by lia. exact H.
Qed.
Lemma block_sorted j f : forall s, StronglySorted row_before (block j s f).
Proof.
  induction f as [|b f IH]; intros s; unfold block; cbn [length seq combine flat_map fst snd]; [constructor|].
  fold (block j (S s) f). destruct b; [|apply IH]. cbn. constructor; [apply IH|]. apply Forall_forall.
  intros [i j'] H. apply block_in in H. right. cbn. lia.
Qed.
Lemma sorted_app {A} (R : A -> A -> Prop) l r : StronglySorted R l -> StronglySorted R r ->
  (forall x y, In x l -> In y r -> R x y) -> StronglySorted R (l ++ r).
Proof.
  induction 1 as [|x l H IH F]; intros Hr C; [easy|]. cbn. constructor; [apply IH; [easy|]; intros; apply C; cbn; auto|].
  apply Forall_app. split; [easy|]. apply Forall_forall. intros y Hy. apply C; cbn; auto.
Qed.
Lemma supports_from fields ids : forall a,
  let s := flat_map (fun jk => flat_map (fun iv : nat * bool => if snd iv then [(fst iv, fst jk)] else [])
                        (combine (seq 0 (length (nth (snd jk) fields []))) (nth (snd jk) fields [])))
           (combine (seq a (length ids)) ids) in
  StronglySorted row_before s /\
  forall i j, In (i, j) s <-> a <= j < a + length ids /\ active fields (nth (j - a) ids 0) i.
Proof.
  induction ids as [|k ids IH]; intros a; cbn [length seq combine flat_map fst snd].
  - split; [constructor|]. intros i j. cbn. lia.
  - destruct (IH (S a)) as [A B]. cbn zeta in A, B. set (rest := flat_map _ _) in *. fold (block a 0 (nth k fields [])). split.
    + apply sorted_app; [apply block_sorted|exact A|]. intros [i j] [i' j'] H H'. apply block_in in H. apply B in H'.
      left. cbn. lia.
    + intros i j. rewrite in_app_iff, block_in, B, Nat.sub_0_r. destruct (Nat.eq_dec j a) as [->|Ne].
      * rewrite Nat.sub_diag. cbn [nth]. unfold active. split; [intros [(_ & _ & H)|(H & _)]; [split; [lia|easy]|lia]|].
        intros (_ & H). left. repeat split; [lia|easy].
      * split.
        -- intros [(-> & _)|(H & C)]; [easy|]. split; [lia|]. now replace (j - a) with (S (j - S a)) by lia.
        -- intros (H & C). right. split; [lia|]. replace (j - a) with (S (j - S a)) in C by lia. exact C.
Qed.
Lemma supports_rows fields ids : support_rows ids fields (supports ids fields).
Proof.
  destruct (supports_from fields ids 0) as [A B]. split; [exact A|]. intros i j. unfold supports. rewrite (B i j), Nat.sub_0_r.
  cbn. intuition lia.
Qed.

Lemma insert_unique_in z l x : In x (insert_unique z l) <-> x = z \/ In x l.
Proof.
  induction l as [|y l IH]; cbn; [intuition|]. destruct (Z.ltb_spec z y); [cbn; intuition|].
  destruct (Z.eqb_spec z y); cbn; [subst; intuition|]. rewrite IH. intuition.
Qed.
Lemma insert_unique_sorted z l : StronglySorted Z.lt l -> StronglySorted Z.lt (insert_unique z l).
Proof.
  induction 1 as [|y l H IH F]; cbn; [repeat constructor|]. destruct (Z.ltb_spec z y).
  - constructor; [now constructor|]. constructor; [easy|]. rewrite Forall_forall in *. intros x Hx. specialize (F x Hx). lia.
  - destruct (Z.eqb_spec z y); [now constructor|]. constructor; [easy|]. apply Forall_forall. intros x Hx.
    apply insert_unique_in in Hx. destruct Hx as [->|Hx]; [lia|]. rewrite Forall_forall in F. auto.
Qed.
Lemma unique_in l x : In x (unique l) <-> In x l.
Proof. unfold unique. induction l as [|y l IH]; cbn; [easy|]. rewrite insert_unique_in, IH. intuition. Qed.
Lemma unique_sorted l : StronglySorted Z.lt (unique l).
Proof. unfold unique. induction l; cbn; [constructor|]. now apply insert_unique_sorted. Qed.
Lemma seq_lt a n : StronglySorted lt (seq a n).
Proof.
  revert a. induction n as [|n IH]; intros a; cbn; constructor; auto. apply Forall_forall. intros x H. apply in_seq in H. lia.
Qed.

Lemma field_ids_spec n mask : match field_ids n mask with
  | Some ids => selected n mask ids /\ ~ bad_mask n mask
  | None => bad_mask n mask
  end.
Proof.
  unfold field_ids, selected, bad_mask. destruct mask as [m|].
  2:{ split; [|easy]. split; [apply seq_lt|]. intros k. rewrite in_seq. intuition lia. }
  pose proof (unique_in m) as U. pose proof (unique_sorted m) as So. destruct (unique m) as [|z u] eqn:E.
  { left. destruct m as [|x m]; [easy|]. exfalso. apply (U x). now left. }
  rewrite <- E in *. destruct (existsb (fun z => z <? 0)%Z (unique m)) eqn:E1; cbn [orb].
  { right. apply existsb_exists in E1. destruct E1 as (x & Hx & L). apply Z.ltb_lt in L. exists x. split; [now apply U|lia]. }
  destruct (existsb (fun z => Z.of_nat n <=? z)%Z (unique m)) eqn:E2.
  { right. apply existsb_exists in E2. destruct E2 as (x & Hx & L). apply Z.leb_le in L. exists x. split; [now apply U|lia]. }
  assert (forall x, In x (unique m) -> (0 <= x < Z.of_nat n)%Z) as R.
  { intros x Hx. destruct (Z.ltb_spec x 0) as [L|L].
    - exfalso. assert (existsb (fun z => z <? 0)%Z (unique m) = true) as C; [|congruence].
      apply existsb_exists. exists x. split; [easy|]. now apply Z.ltb_lt.
    - split; [easy|]. destruct (Z.ltb_spec x (Z.of_nat n)) as [L'|L']; [easy|]. exfalso.
      assert (existsb (fun z => Z.of_nat n <=? z)%Z (unique m) = true) as C; [|congruence].
      apply existsb_exists. exists x. split; [easy|]. now apply Z.leb_le. }
  split; [split|].
  - clear - R So. induction So as [|x l H IH F]; cbn; constructor.
    + apply IH. intros y Hy. apply R. now right.
    + apply Forall_forall. intros k Hk. apply in_map_iff in Hk. destruct Hk as (y & <- & Hy). rewrite Forall_forall in F.
      specialize (F y Hy). pose proof (R x (or_introl eq_refl)). pose proof (R y (or_intror Hy)). lia.
  - intros k. rewrite in_map_iff. split.
    + intros (x & <- & Hx). pose proof (R x Hx). split; [lia|]. rewrite Z2Nat.id by lia. now apply U.
    + intros (L & Hk). exists (Z.of_nat k). split; [apply Nat2Z.id|now apply U].
  - intros [->|(z' & Hz & L)]; [discriminate E|]. apply U in Hz. specialize (R z' Hz). lia.
Qed.

(** Patches without gaps *)
Lemma nodup_full l : length (nodup Nat.eq_dec l) = list_max l + 1 -> forall i, i <= list_max l -> In i l.
Proof.
  intros E i Hi. apply (nodup_In Nat.eq_dec).
  assert (incl (seq 0 (list_max l + 1)) (nodup Nat.eq_dec l)) as I.
  { apply NoDup_length_incl.
    - apply NoDup_nodup.
    - rewrite seq_length. lia.
    - intros x Hx. apply nodup_In in Hx. apply list_max_le in Hx. apply in_seq. lia. }
  apply I, in_seq. lia.
Qed.
Lemma full_nodup l : (forall i, i <= list_max l -> In i l) -> length (nodup Nat.eq_dec l) = list_max l + 1.
Proof.
  intros H. apply Nat.le_antisymm.
  - transitivity (length (seq 0 (list_max l + 1))); [|now rewrite seq_length]. apply NoDup_incl_length; [apply NoDup_nodup|].
    intros x Hx. apply nodup_In in Hx. apply list_max_le in Hx. apply in_seq. lia.
  - transitivity (length (seq 0 (list_max l + 1))); [now rewrite seq_length|]. apply NoDup_incl_length; [apply seq_NoDup|].
    intros x Hx. apply in_seq in Hx. apply nodup_In, H. lia.
Qed.
Lemma list_max_in l : l <> [] -> In (list_max l) l.
Proof.
  induction l as [|x l IH]; [easy|]. intros _. cbn [list_max fold_right]. change (fold_right Nat.max 0 l) with (list_max l).
  destruct l as [|y l]; [left; cbn; lia|]. destruct (Nat.max_spec x (list_max (y :: l))) as [[_ ->]|[_ ->]]; [right; now apply IH|now left].
Qed.

Lemma matrix_some mask fields m : support_matrix mask fields = Some m -> exists ids,
  field_ids (length fields) mask = Some ids /\ m = combine (supports ids fields) (counters (map fst (supports ids fields))) /\
  supports ids fields <> [] /\ no_gap fields ids.
Proof.
  unfold support_matrix. destruct (field_ids (length fields) mask) as [ids|]; [|easy].
  pose proof (supports_rows fields ids) as [_ R]. destruct (supports ids fields) as [|x s] eqn:E; [easy|]. rewrite <- E in *.
  destruct (Nat.eqb_spec (length (nodup Nat.eq_dec (map fst (supports ids fields)))) (list_max (map fst (supports ids fields)) + 1)) as [G|G]; [|easy].
  cbn [negb]. intros [= <-]. exists ids. split; [easy|]. split; [easy|]. split; [congruence|].
  intros i k Hk Ha i' Hi. destruct (In_nth ids k 0 Hk) as (j & Hj & <-).
  assert (In i (map fst (supports ids fields))) as I by (apply in_map_iff; exists (i, j); split; [easy|]; now apply R).
  pose proof (list_max_le _ _ I). pose proof (nodup_full _ G i' ltac:(lia)) as I'. apply in_map_iff in I'.
  destruct I' as ([a b] & <- & I'). apply R in I'. exists (nth b ids 0). split; [apply nth_In; tauto|easy].
Qed.
Lemma matrix_none mask fields : support_matrix mask fields = None <->
  bad_mask (length fields) mask \/
  exists ids, selected (length fields) mask ids /\ ((forall k i, In k ids -> ~ active fields k i) \/ ~ no_gap fields ids).
Proof.
  pose proof (field_ids_spec (length fields) mask) as F. unfold support_matrix.
  destruct (field_ids (length fields) mask) as [ids|]; [|tauto]. destruct F as [Se Nb].
  pose proof (supports_rows fields ids) as [_ R].
  assert (forall ids', selected (length fields) mask ids' -> forall k, In k ids' <-> In k ids) as Un.
  { intros ids' [_ A] k. rewrite (A k). destruct Se as [_ B]. now rewrite (B k). }
  destruct (supports ids fields) as [|x s] eqn:E.
  - split; [intros _|easy]. right. exists ids. split; [easy|]. left. intros k i Hk Ha.
    destruct (In_nth ids k 0 Hk) as (j & Hj & <-). apply (R i j). auto.
  - rewrite <- E in *. destruct (Nat.eqb_spec (length (nodup Nat.eq_dec (map fst (supports ids fields)))) (list_max (map fst (supports ids fields)) + 1)) as [G|G]; cbn [negb].
    + split; [easy|]. intros [?|(ids' & S' & [N|N])]; [tauto| |].
      * exfalso. destruct x as [i j]. assert (In (i, j) (supports ids fields)) as I by (rewrite E; now left).
        apply R in I. apply (N (nth j ids 0) i); [|easy]. apply (Un ids' S'). apply nth_In. tauto.
      * exfalso. apply N. intros i k Hk Ha i' Hi. apply (Un ids' S') in Hk. destruct (In_nth ids k 0 Hk) as (j & Hj & <-).
        assert (In i (map fst (supports ids fields))) as I by (apply in_map_iff; exists (i, j); split; [easy|]; now apply R).
        pose proof (list_max_le _ _ I). pose proof (nodup_full _ G i' ltac:(lia)) as I'. apply in_map_iff in I'.
        destruct I' as ([a b] & <- & I'). apply R in I'. exists (nth b ids 0). split; [apply (Un ids' S'), nth_In; tauto|easy].
    + split; [intros _|easy]. right. exists ids. split; [easy|]. right. intros NG. apply G, full_nodup. intros i Hi.
      assert (In (list_max (map fst (supports ids fields))) (map fst (supports ids fields))) as Im
        by (apply list_max_in; rewrite E; discriminate).
      apply in_map_iff in Im. destruct Im as ([a b] & Ea & I). cbn in Ea. apply R in I. rewrite <- Ea in Hi.
      destruct (NG a (nth b ids 0) ltac:(apply nth_In; tauto) ltac:(tauto) i Hi) as (k' & Hk & Ha).
      destruct (In_nth ids k' 0 Hk) as (j & Hj & <-). apply in_map_iff. exists (i, j). split; [easy|]. now apply R.
Qed.
Lemma matrix_counts s : let m := combine s (counters (map fst s)) in
  map fst m = s /\ length m = length s /\
  forall r i j c, nth_error m r = Some (i, j, c) -> c = Z.of_nat (earlier s r i).
Proof.
  cbn zeta. destruct (counters_spec (map fst s)) as [L C]. rewrite map_length in *.
  assert (map fst (combine s (counters (map fst s))) = s) as E by now apply map_fst_combine.
  split; [easy|]. assert (length (combine s (counters (map fst s))) = length s) as Lc by (rewrite combine_length; lia).
  split; [easy|]. intros r i j c H.
  assert (r < length s) as Hr by (rewrite <- Lc; apply nth_error_Some; congruence).
  pose proof (map_nth_error snd _ _ H) as H1. rewrite map_snd_combine in H1 by easy. cbn in H1.
  pose proof (map_nth_error fst _ _ H) as H2. rewrite E in H2. cbn in H2.
  apply nth_error_nth with (d := 0%Z) in H1. rewrite C in H1 by easy.
  rewrite <- H1. unfold earlier. rewrite firstn_map. f_equal. f_equal.
  apply (map_nth_error fst) in H2. cbn in H2. now apply nth_error_nth.
Qed.
(** The k-th field of a patch is the one of the row with counter k. *)
Lemma patch_columns ids (m : list (nat * nat * Z)) r i j c : nth_error m r = Some (i, j, c) ->
  c = Z.of_nat (earlier (map fst m) r i) ->
  nth_error (patch_fields ids m i) (Z.to_nat c) = Some (nth j ids 0).
Proof.
  intros H Ec. assert (Z.to_nat c = earlier (map fst m) r i) as -> by lia. clear Ec. unfold patch_fields, earlier.
  revert r H. induction m as [|[[a b] d] m IH]; intros r H; [now destruct r|].
  destruct r as [|r].
  - cbn in H. injection H as -> -> ->. cbn [filter fst snd firstn map count_occ]. now rewrite Nat.eqb_refl.
  - cbn [nth_error] in H. cbn [filter fst snd firstn map count_occ].
    destruct (Nat.eqb_spec a i) as [->|Ne].
    + destruct (Nat.eq_dec i i); [|easy]. cbn [map nth_error]. apply (IH r H).
    + destruct (Nat.eq_dec a i); [easy|]. apply (IH r H).
Qed.

(** * Old format: all boundary faces in one element *)
Lemma load_one_list n faces (w : list nat) id t0 : 0 < faces -> length t0 = n * faces -> NoDup w ->
  Forall (fun i => i < n * faces) w ->
  exists t1, load_boundaries n faces index_offset id [text (concat (map (face_row faces) w))] t0 = Some t1 /\
    length t1 = length t0 /\ (forall i, In i w -> nth i t1 0%Z = (- id)%Z) /\
    (forall i, ~ In i w -> nth i t1 0%Z = nth i t0 0%Z).
Proof.
  intros Hf L0 Nd Fw. destruct w as [|i0 w'] eqn:Ew.
  - exists t0. cbn. repeat split; intros; easy.
  - rewrite <- Ew in *. exists (puts (map (fun i => (i, - id)%Z) w) t0).
    assert (Forall (fun x : nat * Z => fst x < length t0) (map (fun i => (i, - id)%Z) w)) as F.
    { apply Forall_forall. intros x Hx. apply in_map_iff in Hx. destruct Hx as (i & <- & Hi). cbn.
      rewrite Forall_forall in Fw. specialize (Fw i Hi). lia. }
    assert (map fst (map (fun i => (i, - id)%Z) w) = w) as MF by (rewrite map_map; cbn; apply map_id).
    split; [|split; [now rewrite puts_length|split]].
    + assert (text (concat (map (face_row faces) w)) = Some (concat (map (face_row faces) w))) as -> by now rewrite Ew.
      cbn [load_boundaries]. rewrite reshape_concat; [|lia|].
      2:{ apply Forall_forall. intros r Hr. apply in_map_iff in Hr. now destruct Hr as (? & <- & _). }
      rewrite (put_faces_ext n faces t0 w _ (fun _ => - id)%Z); [easy|easy|].
      rewrite map_map. apply map_ext. intro i. unfold face_row, col, index_offset. cbn [nth]. f_equal. f_equal; lia.
    + intros i Hi. apply puts_in; [easy|now rewrite MF|]. apply in_map_iff. eauto.
    + intros i Hi. apply puts_other; [easy|now rewrite MF].
Qed.
Lemma old_roundtrip n para_dim t orient : 0 < n -> 0 < para_dim -> patch_table n (2 * para_dim) t ->
  (forall l, length (orient l) = 2 * para_dim) ->
  exists f, export_table para_dim orient false t = Some f /\
    load_table f = Some (map (fun v => if (v <? 0)%Z then (-1)%Z else v) t).
Proof.
  intros Hn Hp V Lo. pose proof V as [Lt Sy].
  assert (exists z r, t = z :: r) as (z & r & Et). { destruct t as [|z r]; [cbn in Lt; nia|eauto]. }
  set (w := where_is (fun v => v <? 0)%Z t).
  assert (forall i, In i w <-> i < length t /\ (nth i t 0 < 0)%Z) as Hw by (intros i; unfold w; now rewrite in_where, Z.ltb_lt).
  set (F := GTable para_dim (index_offset, Z.of_nat (length t / (2 * para_dim)) - 1 + index_offset)%Z
              (text (concat (map (interface_row orient) (lines (2 * para_dim) t))))
              (match w with [] => [] | l => [text (concat (map (face_row (2 * para_dim)) l))] end)).
  exists F. split.
  - unfold export_table. rewrite Et at 1. unfold F. do 2 f_equal; [|fold w; now destruct w].
    destruct (where_is (fun v => 0 <=? v)%Z t) as [|w0 ws] eqn:W; [|easy].
    assert (lines (2 * para_dim) t = []) as ->; [|easy].
    unfold lines. 
    change (filter (fun i => (0 <=? nth i t 0) && (Z.of_nat i <? nth i t 0))%Z (seq 0 (length t))) with (firsts t).
    destruct (firsts t) as [|k ks] eqn:Fk; [easy|]. exfalso.
    assert (In k (firsts t)) as Ik by (rewrite Fk; now left). apply in_firsts in Ik.
    assert (In k (where_is (fun v => 0 <=? v)%Z t)) as Iw by (apply in_where; rewrite Z.leb_le; lia).
    now rewrite W in Iw.
  - unfold load_table, F. cbn [g_range g_para_dim g_interfaces g_boundaries fst snd].
    rewrite Lt, Nat.div_mul by lia. destruct (Z.ltb_spec (Z.of_nat n - 1 + index_offset - index_offset + 1) 0); [lia|].
    replace (Z.to_nat (Z.of_nat n - 1 + index_offset - index_offset + 1)) with n by lia.
    rewrite (Nat.mul_comm para_dim 2). set (t0 := repeat invalid_integer (n * (2 * para_dim))).
    assert (length t0 = length t) as L0 by (unfold t0; now rewrite repeat_length).
    destruct (load_interfaces_ok n para_dim t orient V Hp Lo t0 L0) as (t1 & E1 & L1 & H1).
    assert (match text (concat (map (interface_row orient) (lines (2 * para_dim) t))) with
            | Some txt => load_interfaces n (2 * para_dim) index_offset txt t0
            | None => Some t0
            end = Some t1) as ->.
    { destruct (text_cases (concat (map (interface_row orient) (lines (2 * para_dim) t)))) as [[-> En]| ->]; [|exact E1].
      rewrite En in E1. unfold load_interfaces in E1. unfold reshape in E1.
      destruct (Nat.eqb_spec (2 * para_dim + 4) 0); [lia|]. cbn [length] in E1. rewrite Nat.mod_0_l in E1 by lia.
      cbn in E1. exact E1. }
    destruct (load_one_list n (2 * para_dim) w 1%Z t1) as (t2 & E2 & L2 & H2 & H3).
    + lia.
    + lia.
    + apply NoDup_filter, seq_NoDup.
    + apply Forall_forall. intros i Hi. apply Hw in Hi. lia.
    + assert (load_boundaries n (2 * para_dim) index_offset 1
                (match w with [] => [] | l => [text (concat (map (face_row (2 * para_dim)) l))] end) t1 = Some t2) as ->.
      { destruct w; [cbn in E2 |- *; exact E2|exact E2]. }
      f_equal. apply nth_ext with (d := 0%Z) (d' := 0%Z); [rewrite map_length; lia|]. intros i Hi. rewrite L2, L1, L0 in Hi.
      rewrite (nth_indep (map _ t) 0%Z ((fun v => if (v <? 0)%Z then (-1)%Z else v) 0%Z)) by now rewrite map_length.
      rewrite (map_nth (fun v => if (v <? 0)%Z then (-1)%Z else v)).
      destruct (Z.ltb_spec (nth i t 0%Z) 0) as [L|L].
      * now rewrite H2 by (apply Hw; auto).
      * rewrite H3 by (rewrite Hw; lia). rewrite (H1 i Hi). destruct (Z.leb_spec 0 (nth i t 0%Z)); [easy|lia].
Qed.
