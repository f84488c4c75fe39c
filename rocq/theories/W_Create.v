(** Witnesses and assembly of the theorems of T_Create. *)
From Coq Require Import List Arith ZArith Lia Bool QArith Qcanon.
From Verif Require Import Base BaseQc S_Spline P_Spline S_Value P_Value M_Core S_Core M_Files S_Files M_Bezier P_Bezier M_Elevate S_Knots S_Pieces
  W_Knots M_Create S_Create P_Revolve P_Shapes P_Create.
Import ListNotations.
Local Open Scope list_scope.
Local Open Scope nat_scope.

Lemma room_kvs limit dim dim' s : sound limit dim s -> room limit dim' s ->
  length (sp_axes s) < limit /\ (has_kvs s = false -> dim' <= limit).
Proof.
  intros (St & _) (H1 & H2). split; [exact H1|]. intros H. apply H2. apply no_kvs_bezier; auto. now apply (storable_axes limit).
Qed.

Lemma C46_value_holds :
  forall limit dim s v, sound limit dim s -> dim <= length v -> room limit (length v) s ->
  exists i s', extruded s v = Some i /\ make limit s i = Some s' /\
    (forall us t, sp_domain s' (us ++ [t]) <-> sp_domain s us /\ (0 <= t)%Qc /\ (t <= 1)%Qc) /\
    forall us t d, sp_domain s us ->
      sp_value s' (us ++ [t]) d = (embedded_in dim (sp_value s us) d + t * nth d v 0)%Qc.
Proof.
  intros limit dim s v So Hv R. destruct (room_kvs _ _ _ _ So R) as [R1 R2].
  eexists. eexists. split; [exact (extruded_eq limit dim s v So Hv)|]. split; [exact (extruded_make limit dim s v So Hv R1 R2)|]. split.
  - intros us t. unfold sp_domain, swept. cbn [sp_axes].
    assert (ax_domain (new_axis s 1 (bezier_knots 1)) t <-> (0 <= t)%Qc /\ (t <= 1)%Qc) as E.
    { unfold new_axis. destruct (has_kvs s); [apply (with_knots_domain (BezierAxis 1))|reflexivity]. }
    rewrite <- E. split.
    + intros H. apply Forall2_app_inv_l in H as (l1 & l2 & H1 & H2 & H3).
      inversion H2 as [|? x ? ? Hx H4]; subst. inversion H4; subst. apply app_inj_tail in H3 as [-> ->]. now split.
    + intros [H1 H2]. apply Forall2_app; auto.
  - intros us t d D. exact (extruded_value limit dim s v So Hv us t d D).
Qed.

Lemma C46_raises_holds :
  forall limit dim s v, sound limit dim s -> (extruded s v = None <-> length v < dim).
Proof.
  intros limit dim s v (St & _ & F & _). unfold extruded. rewrite (dims_eq limit dim s St F).
  destruct (Nat.ltb_spec (length v) dim); split; intros; try easy. lia.
Qed.

Lemma C46_embedded_holds :
  forall limit dim s n, sound limit dim s -> 1 <= n ->
  ((exists p, In (BezierAxis p) (sp_axes s)) -> n <= limit) ->
  exists i s', embedded s (Z.of_nat n) = Some i /\ make limit s i = Some s' /\
    Forall (fun p => length p = n) (sp_cps s') /\ (forall us, sp_domain s' us <-> sp_domain s us) /\
    forall us d, sp_domain s us -> d < n -> sp_value s' us d = embedded_in dim (sp_value s us) d.
Proof.
  intros limit dim s n So Hn Hb.
  assert (has_kvs s = false -> n <= limit) as Hb'.
  { intros H. apply Hb. apply no_kvs_bezier; auto. apply (storable_axes limit). apply So. }
  eexists. eexists. split; [exact (embedded_eq limit dim s n So Hn)|]. split; [exact (embedded_make limit dim s n So Hn Hb')|].
  split; [|split; [intros us; reflexivity|]].
  - cbn [sp_cps]. apply Forall_map. apply Forall_forall. intros p _. apply zero_padded_length. rewrite firstn_length. lia.
  - intros us d D Hd. exact (embedded_value limit dim s n us d So D Hd).
Qed.

Definition nurbs_line : spline :=
  Spl [KnotAxis 1 [0; 0; 1; 1]%Qc] [[1; 0]; [qc 2 1; 1]]%Qc (Some [1%Qc; qc 2 1]).

Lemma nurbs_line_sound : sound 10 2 nurbs_line.
Proof.
  refine (conj _ (conj _ (conj _ _))).
  - exists [1%Z], (Some [[0; 0; 1; 1]%Qc]), [[1; 0]; [qc 2 1; 1]]%Qc, (Some [1%Qc; qc 2 1]).
    refine (conj _ (conj _ _)).
    + split; [discriminate|]. split; [constructor; [apply (bezier_fit 1)|constructor]|].
      split; [exists 2; split; [lia|now repeat constructor]|]. split; reflexivity.
    + split; [cbn; lia|]. constructor; [apply (bezier_high 1)|constructor].
    + unfold has_properties, nurbs_line. cbn. repeat split. constructor; [now exists 1|constructor].
  - split; [|split; reflexivity]. constructor; [apply (bezier_knots_wf 1)|constructor].
  - now repeat constructor.
  - now repeat constructor.
Qed.

Lemma C46_example_holds :
  sound 10 2 nurbs_line /\ room 10 3 nurbs_line /\
  exists i s', extruded nurbs_line [1; 0; qc 3 1]%Qc = Some i /\ make 10 nurbs_line i = Some s' /\
    map (sp_value s' [qc 1 2; qc 1 3]) [0; 1; 2] = [qc 2 1; qc 2 3; 1]%Qc.
Proof.
  split; [exact nurbs_line_sound|]. split.
  - split; [cbn; lia|]. intros (p & [H|[]]). discriminate.
  - do 2 eexists. split; [vm_compute; reflexivity|]. split; [vm_compute; reflexivity|]. qceq.
Qed.

Lemma C47_extruded_holds :
  forall limit dim s v i, sound limit dim s -> extruded s v = Some i -> matching (name_of s) i.
Proof.
  intros limit dim s v i So E. assert (dim <= length v) as Hv.
  { destruct (Nat.le_gt_cases dim (length v)) as [|H]; auto. apply (C46_raises_holds limit dim s v So) in H. congruence. }
  rewrite (extruded_eq limit dim s v So Hv) in E. injection E as <-. exact (extruded_consistent limit dim s v So Hv).
Qed.

Lemma C47_revolved_holds :
  forall O limit dim s axis center angle asked degree i, constants O -> square O -> sound limit dim s ->
  revolved O s axis center angle asked degree = Some i -> matching (name_of s) i.
Proof.
  intros O limit dim s axis center angle asked degree i Cn Sq So E.
  destruct (revolution O limit dim s axis center angle asked degree i Cn So E) as (n & (Hn & _) & Hd & Hk & Hk3 & Hc & Hb & Hax & ->).
  apply (turn_consistent O limit dim s); auto.
Qed.

Lemma C47_revolved_raises_holds :
  forall O limit dim s axis center angle asked degree, constants O -> sound limit dim s ->
  exists n, enough_spans O (radians O angle degree) asked n /\
  let dim' := revolved_dim dim axis in
  ((exists i, revolved O s axis center angle asked degree = Some i) <->
   dim <= dim' /\ (dim' = 2 \/ dim' = 3) /\
   match axis with Some v => (o_tolerance O < qabs (o_norm O v))%Qc | None => dim = 2 end /\
   match center with Some c => length c = dim' | None => True end /\
   (n = 1 \/ exists p kv, In (KnotAxis p kv) (sp_axes s))).
Proof.
  intros O limit dim s axis center angle asked degree Cn So.
  destruct (revolved_spec O limit dim s axis center angle asked degree Cn So) as (n & _ & En & E).
  exists n. split; [exact En|]. cbv zeta in *. rewrite E.
  assert (Kv : has_kvs s = true <-> exists p kv, In (KnotAxis p kv) (sp_axes s)).
  { destruct So as ((degs & kvs & cps & ws & C & _ & H) & _).
    destruct (P_Files.core_props s degs kvs cps ws C H) as (_ & _ & _ & _ & _ & _ & X). symmetry. exact X. }
  assert (H0 : forall (b : bool) (x : inputs), (exists i, (if b then Some x else None) = Some i) <-> b = true).
  { intros [|] x; split; intros H; try easy; [eauto|]. now destruct H. }
  rewrite H0, !andb_true_iff, !orb_true_iff, !Nat.eqb_eq, Nat.leb_le, Kv.
  assert (H1 : match axis with Some v => negb (qleb (qabs (o_norm O v)) (o_tolerance O)) | None => dim =? 2 end = true <->
    match axis with Some v => (o_tolerance O < qabs (o_norm O v))%Qc | None => dim = 2 end).
  { destruct axis as [v|]; [|apply Nat.eqb_eq]. destruct (qleb_spec (qabs (o_norm O v)) (o_tolerance O)) as [H|H]; cbn; split; intros; try easy.
    - exfalso. qlra.
    - apply Qcnot_le_lt. exact H. }
  assert (H2 : match center with Some c => length c =? revolved_dim dim axis | None => true end = true <->
    match center with Some c => length c = revolved_dim dim axis | None => True end).
  { destruct center; [apply Nat.eqb_eq|easy]. }
  rewrite H1, H2. tauto.
Qed.

Lemma C47_line_holds :
  forall dim points, 0 < dim -> Forall (fun p => length p = dim) points -> 2 <= length points ->
  matching CBSpline (line points).
Proof.
  intros dim points Hd F H.
  destruct (line_consistent points dim (length points - 1) Hd F ltac:(lia) ltac:(lia)) as [H1 H2].
  do 4 eexists. split; [exact H1|exact H2].
Qed.

Lemma C47_box_holds :
  forall limit lengths, (exists s, box limit lengths = Some s) <-> 1 <= length lengths <= limit.
Proof.
  intros limit ls. pose proof (box_spec limit ls) as B. destruct (box limit ls) as [s|]; split; intros H.
  - apply B.
  - eauto.
  - destruct H; discriminate.
  - destruct B as [->|B]; cbn in *; lia.
Qed.

Lemma C47_example_holds :
  (exists i, revolved (Oracles (fun x => x) (fun x => x) (qc 22 7) (fun _ => 1%Qc) (fun _ _ => [[1; 0]; [0; 1]]%Qc) (qc 1 1000))
     nurbs_line None None None (Some 7%Z) true = Some i /\
   exists kvs, in_kvs i = Some kvs /\ map (@length Qc) kvs = [4; 18]) /\
  (exists s, box 10 [1; qc 2 1; qc 3 1]%Qc = Some s /\ length (sp_cps s) = 8) /\
  matching CBSpline (line [[0; 1]; [1; 1]; [qc 3 1; 0]]%Qc).
Proof.
  split; [eexists; split; [vm_compute; reflexivity|eexists; split; [reflexivity|vm_compute; reflexivity]]|].
  split; [eexists; split; vm_compute; reflexivity|].
  apply (C47_line_holds 2); [lia|now repeat constructor|cbn; lia].
Qed.

Lemma turn_domain s n t : 1 <= n -> (has_kvs s = false -> n = 1) -> (ax_domain (turn_axis s n) t <-> (0 <= t)%Qc /\ (t <= inj n)%Qc).
Proof.
  intros Hn Hb. unfold turn_axis, new_axis. destruct (has_kvs s) eqn:E.
  - assert (ax_lower (KnotAxis 2 (revolved_knots n)) = 0%Qc) as E1 by reflexivity.
    assert (ax_upper (KnotAxis 2 (revolved_knots n)) = inj n) as E2.
    { destruct (joined_n 2 n (map inj (seq 0 (n + 1))) (revolved_knots n) ltac:(lia) Hn ltac:(now rewrite map_length, seq_length) (revolved_sorted n)
        (revolved_knots_eq n Hn)) as [H L]. unfold ax_upper. rewrite H. rewrite (kn_nth _ _ 0%Qc) by lia.
      unfold revolved_knots. cbn [app]. replace (2 * n + 1) with (S (S (S (2 * (n - 1))))) by lia. cbn [nth].
      rewrite app_nth2; rewrite (flat_map_length_const _ 2), seq_length by reflexivity; [|lia].
      replace (2 * (n - 1) - (n - 1) * 2) with 0 by lia. reflexivity. }
    unfold ax_domain. now rewrite E1, E2.
  - rewrite (Hb eq_refl). reflexivity.
Qed.

Lemma half_angle (rad : Qc) m n : 1 <= n -> (inj (2 * m) * (rad / (inj 2 * inj n)))%Qc = (inj m * rad / inj n)%Qc.
Proof.
  intros H. assert (inj (2 * m) = inj 2 * inj m)%Qc as -> by apply inj_mul. field.
  split; [now apply inj_neq|discriminate].
Qed.

Lemma C61_revolution_holds :
  forall O limit dim s axis center angle asked degree i, constants O -> sound limit dim s ->
  revolved O s axis center angle asked degree = Some i -> room limit (revolved_dim dim axis) s ->
  match axis with Some v => measures O v | None => True end ->
  let rad := radians O angle degree in
  let dim' := revolved_dim dim axis in
  let k := as_vector (direction O axis) in
  let from_center us e := (embedded_in dim (sp_value s us) e - origin center e)%Qc in
  exists n, enough_spans O rad asked n /\
  let a := (rad / (inj 2 * inj n))%Qc in
  (circular O a -> rotates O (direction O axis) a ->
   exists r, make limit s i = Some r /\
     (forall us t, sp_domain r (us ++ [t]) <-> sp_domain s us /\ (0 <= t)%Qc /\ (t <= inj n)%Qc) /\
     (forall us m d, sp_domain s us -> m <= n -> d < dim' ->
        sp_value r (us ++ [inj m]) d =
        (origin center d + turned k (o_cos O (inj m * rad / inj n)) (o_sin O (inj m * rad / inj n)) (from_center us) d)%Qc) /\
     (sp_weights s <> None -> forall us t, sp_domain s us -> (0 <= t)%Qc -> (t <= inj n)%Qc ->
        exists al be, (al * al + be * be)%Qc = 1%Qc /\
          forall d, d < dim' -> sp_value r (us ++ [t]) d = (origin center d + turned k al be (from_center us) d)%Qc)).
Proof.
  intros O limit dim s axis center angle asked degree i Cn So E R Me rad dim' k from.
  destruct (revolution O limit dim s axis center angle asked degree i Cn So E) as (n & En & Hd & Hk & Hk3 & Hc & Hb & Hax & ->).
  exists n. split; [exact En|]. intros a Ci Ro. destruct En as (Hn & _).
  destruct (room_kvs _ _ _ _ So R) as [R1 R2].
  assert (Un : unit_axis (as_vector (direction O axis))).
  { apply direction_unit; auto. destruct axis; auto. }
  exists (turn_result O s dim' (direction O axis) center a n). split; [|split; [|split]].
  - apply (turn_make O limit dim s dim' (direction O axis) center a n So Hd Hk Hk3 Hc Hn Hb); auto.
    destruct Ro as [Ro _]. destruct (direction O axis); exact Ro.
  - intros us t. rewrite <- (turn_domain s n t Hn Hb). unfold sp_domain, turn_result, swept. cbn [sp_axes]. split.
    + intros H. apply Forall2_app_inv_l in H as (l1 & l2 & H1 & H2 & H3).
      inversion H2 as [|? x ? ? Hx H4]; subst. inversion H4; subst. apply app_inj_tail in H3 as [-> ->]. now split.
    + intros [H1 H2]. apply Forall2_app; auto.
  - intros us m d D Hm Hdd.
    rewrite (turn_knots O limit dim s dim' (direction O axis) center a n So Hd Hk Hk3 Hc Hn Hb Ci Ro Un us m d D Hm Hdd).
    unfold a. rewrite half_angle by auto. reflexivity.
  - intros Hw us t D T0 T1.
    exact (turn_exact O limit dim s dim' (direction O axis) center a n So Hd Hk Hk3 Hc Hn Hb Ci Ro Un us t Hw D T0 T1).
Qed.

Definition unit_vector (n j : nat) : list Qc := map (fun i => if i =? j then 1%Qc else 0%Qc) (seq 0 n).

Definition matrix (axis : option (list Qc)) (c s : Qc) : list (list Qc) :=
  let n := match axis with None => 2 | Some _ => 3 end in
  map (fun d => map (fun j => turned (as_vector axis) c s (fun e => nth e (unit_vector n j) 0%Qc) d) (seq 0 n)) (seq 0 n).

Lemma matrix_rotates O axis a : o_rotation O axis a = matrix axis (o_cos O a) (o_sin O a) -> rotates O axis a.
Proof.
  intros E. unfold rotates. rewrite E. destruct axis as [k|]; cbv zeta; (split; [reflexivity|]); intros p d Lp Hd.
  - destruct p as [|x [|y [|z [|]]]]; try discriminate.
    destruct d as [|[|[|d]]]; try lia; cbn; unfold turned, dot; cbn; ring.
  - destruct p as [|x [|y [|]]]; try discriminate.
    destruct d as [|[|d]]; try lia; cbn; unfold turned, dot; cbn; ring.
Qed.

Fixpoint multiple (m : nat) : Qc * Qc :=
  match m with
  | 0 => (1, 0)%Qc
  | S m => let (c, s) := multiple m in (c * qc 3 5 - s * qc 4 5, s * qc 3 5 + c * qc 4 5)%Qc
  end.

Definition halves (x : Qc) : nat := Z.to_nat (Qround.Qfloor (this (inj 2 * x)%Qc)).

Definition turn_oracles : oracles :=
  let cos x := fst (multiple (halves x)) in
  let sin x := if qeqb x (qc 15 14) then qc 3 5 else snd (multiple (halves x)) in
  Oracles cos sin (qc 22 7) (fun v => nth 2 v 0%Qc) (fun axis a => matrix axis (cos a) (sin a)) (qc 1 1000).

Lemma halves_inj m : halves (inj m * qc 1 2)%Qc = m.
Proof.
  unfold halves. assert (inj 2 * (inj m * qc 1 2) = inj m)%Qc as ->.
  { transitivity (inj m * (inj 2 * qc 1 2))%Qc; [ring|]. assert (inj 2 * qc 1 2 = 1)%Qc as -> by qceq. ring. }
  assert (Qround.Qfloor (this (inj m)) = Z.of_nat m) as ->; [|apply Nat2Z.id].
  transitivity (Qround.Qfloor (inject_Z (Z.of_nat m))); [|apply Qround.Qfloor_Z].
  apply Qround.Qfloor_comp. unfold inj. apply Qred_correct.
Qed.

Lemma half_not m : qeqb (inj m * qc 1 2)%Qc (qc 15 14) = false.
Proof.
  destruct (qeqb_spec (inj m * qc 1 2)%Qc (qc 15 14)) as [E|]; [|reflexivity]. exfalso.
  assert (inj 7 * inj m = inj 15)%Qc as H.
  { transitivity (inj 14 * (inj m * qc 1 2))%Qc; [|rewrite E; qceq].
    transitivity (inj m * (inj 14 * qc 1 2))%Qc; [|ring]. assert (inj 14 * qc 1 2 = inj 7)%Qc as -> by qceq. ring. }
  rewrite <- inj_mul in H. apply inj_inj in H. lia.
Qed.

Lemma turn_oracles_circular : circular turn_oracles (qc 1 2).
Proof.
  unfold circular, turn_oracles. cbn [o_cos o_sin o_pi].
  assert (H1 : (qc 1 2) = (inj 1 * qc 1 2)%Qc) by qceq.
  split; [qceq|]. split; [qceq|]. split; [reflexivity|]. split; [qceq|]. split; [qceq|].
  intros m. rewrite !half_not, !halves_inj. cbn [multiple].
  assert (fst (multiple (halves (qc 1 2))) = qc 3 5) as -> by qceq.
  assert (snd (multiple (halves (qc 1 2))) = qc 4 5) as -> by qceq.
  assert (qeqb (qc 1 2) (qc 15 14) = false) as -> by reflexivity.
  destruct (multiple m) as [c s]. cbn [fst snd]. split; ring.
Qed.

Lemma C61_example_holds :
  let axis := Some [0; 0; qc 2 1]%Qc in
  let center := Some [0; 1; 0]%Qc in
  constants turn_oracles /\ sound 10 2 nurbs_line /\ room 10 3 nurbs_line /\ measures turn_oracles [0; 0; qc 2 1]%Qc /\
  circular turn_oracles (qc 2 1 / (inj 2 * inj 2))%Qc /\
  rotates turn_oracles (direction turn_oracles axis) (qc 2 1 / (inj 2 * inj 2))%Qc /\
  exists i r, revolved turn_oracles nurbs_line axis center (Some (qc 2 1)) (Some 2%Z) false = Some i /\
    make 10 nurbs_line i = Some r /\
    map (sp_value r [0; 1]%Qc) [0; 1; 2] = [qc 17 25; qc 56 25; 0]%Qc /\
    map (sp_value r [0; qc 1 2]%Qc) [0; 1; 2] = [qc 7 5; qc 6 5; 0]%Qc.
Proof.
  cbv zeta.
  assert (qc 2 1 / (inj 2 * inj 2) = qc 1 2)%Qc as E by qceq.
  split; [split; reflexivity|]. split; [exact nurbs_line_sound|]. split; [split; [cbn; lia|intros (p & [H|[]]); discriminate]|].
  split; [unfold measures; qceq|]. rewrite E. split; [exact turn_oracles_circular|]. split; [apply matrix_rotates; reflexivity|].
  do 2 eexists. split; [vm_compute; reflexivity|]. split; [vm_compute; reflexivity|]. split; qceq.
Qed.

Lemma C62_line_holds :
  forall limit dim points n, 1 <= limit -> 0 < dim -> Forall (fun p => length p = dim) points ->
  1 <= n -> length points = n + 1 ->
  exists s, make_line limit points = Some s /\
    (forall u, sp_domain s [u] <-> (0 <= u)%Qc /\ (u <= 1)%Qc) /\
    forall c t d, c < n -> (0 <= t)%Qc -> (t <= 1)%Qc ->
      sp_value s [(inj c + t) / inj n]%Qc d =
      ((1 - t) * nth d (nth c points []) 0 + t * nth d (nth (c + 1) points []) 0)%Qc.
Proof.
  intros limit dim points n Hl Hd F Hn L. eexists. split; [exact (line_spec limit points dim n Hd F Hn L Hl)|]. split.
  - intros u. unfold sp_domain. cbn [sp_axes].
    assert (ax_domain (KnotAxis 1 (expand_knots (line_breaks n) (joined 1 n))) u <-> (0 <= u)%Qc /\ (u <= 1)%Qc) as <-.
    { rewrite <- (line_knots n points Hn L). unfold ax_domain, ax_lower, ax_upper, ax_n.
      assert (length ([0%Qc] ++ linspace01 (length points) ++ [1%Qc]) = n + 3) as Ll.
      { rewrite !app_length. unfold linspace01. rewrite map_length, seq_length. cbn. lia. }
      rewrite Ll. rewrite !(kn_nth _ _ 0%Qc) by lia. replace (n + 3 - 1 - 1) with (S n) by lia. cbn [app nth].
      unfold linspace01. rewrite L, Nat.add_1_r. replace (S n - 1) with n by lia.
      rewrite seq_S, map_app. cbn [map Nat.add]. rewrite <- app_assoc.
      assert (forall rest d, nth 0 (map (fun i => inj i / inj n)%Qc (seq 0 n) ++ rest) d = 0%Qc) as ->.
      { intros rest d. destruct n; [lia|]. cbn. unfold Qcdiv. change (inj 0) with 0%Qc. ring. }
      rewrite app_nth2 by (rewrite map_length, seq_length; lia). rewrite map_length, seq_length, Nat.sub_diag. cbn [app nth].
      assert (inj n / inj n = 1)%Qc as -> by (field; now apply inj_neq). reflexivity. }
    split; [intros H; inversion H; auto|]. intros H. constructor; auto.
  - intros c t d Hc T0 T1. exact (line_value n points c t d Hn L Hc T0 T1).
Qed.

Lemma C62_short_holds :
  forall limit points, length points <= 1 -> make_line limit points = None.
Proof. intros. now apply line_short. Qed.

Lemma C62_example_holds :
  exists s, make_line 10 [[0; 1]; [qc 2 1; 1]; [qc 2 1; qc 5 1]]%Qc = Some s /\
    map (sp_value s [qc 3 4]) [0; 1] = [qc 2 1; qc 3 1].
Proof. eexists. split; [vm_compute; reflexivity|]. qceq. Qed.

Lemma C63_box_holds :
  forall limit lengths s, box limit lengths = Some s ->
  sp_axes s = repeat (BezierAxis 1) (length lengths) /\ Forall (fun p => length p = length lengths) (sp_cps s) /\
  forall us d, sp_domain s us -> sp_value s us d = (nth d us 0 * nth d lengths 0)%Qc.
Proof.
  intros limit ls s E. pose proof (box_spec limit ls) as B. rewrite E in B. destruct B as (_ & (_ & _ & F & _) & Ea & _ & V).
  split; [exact Ea|]. split; [exact F|exact V].
Qed.

Lemma C63_bounds_partial_holds :
  forall limit plo phi lo hi, length hi = length lo -> 1 <= length lo <= limit ->
  length lo <= length plo -> length lo <= length phi ->
  (forall d, d < length lo -> (qc (-1) 1 <= nth d plo 0)%Qc /\ (nth d plo 0 < nth d phi 0)%Qc) ->
  exists s, from_bounds limit plo phi lo hi = Some s /\
    (forall us, sp_domain s us <-> length us = length lo /\
       forall d, d < length lo -> (nth d plo 0 <= nth d us 0)%Qc /\ (nth d us 0 <= nth d phi 0)%Qc) /\
    forall us d, sp_domain s us -> d < length lo ->
      sp_value s us d =
      (nth d lo 0 + (nth d us 0 - nth d plo 0) / (nth d phi 0 - nth d plo 0) * (nth d hi 0 - nth d lo 0))%Qc.
Proof.
  intros limit plo phi lo hi L Hn L1 L2 Hb.
  assert (exists b, box limit (row_sub hi lo) = Some b) as (b & E).
  { apply C47_box_holds. rewrite row_sub_length. lia. }
  set (pairs := combine (firstn (length lo) plo) (firstn (length lo) phi)).
  assert (Lp : length pairs = length lo) by (unfold pairs; rewrite combine_length, !firstn_length; lia).
  assert (Np : forall d, d < length lo -> nth d pairs (0, 0)%Qc = (nth d plo 0, nth d phi 0)%Qc).
  { intros d Hd. unfold pairs. rewrite combine_nth by (rewrite !firstn_length; lia). now rewrite !P_Knots.nth_firstn by lia. }
  assert (F : Forall (fun ab => qc (-1) 1 <= fst ab /\ fst ab < snd ab)%Qc pairs).
  { apply Forall_forall. intros ab Hab. apply (In_nth _ _ (0, 0)%Qc) in Hab as (d & Hd & <-). rewrite Lp in Hd. rewrite Np by auto. cbn. auto. }
  destruct (from_bounds_eq limit plo phi lo hi L b E L1 L2) as [E1 _].
  { eapply Forall_impl; [|exact F]. cbn. intros ab [H1 H2]. split; [exact H1|]. now apply Qclt_le_weak. }
  exists (bounds_spline plo phi lo (sp_cps b)). split; [exact E1|]. split.
  - intros us. unfold sp_domain, bounds_spline. cbn [sp_axes]. fold pairs. split.
    + intros H. pose proof (Forall2_len _ _ _ H) as Lu. rewrite map_length, Lp in Lu. split; [easy|]. intros d Hd.
      apply (forall2_nth _ _ _ (segment (0, 0)%Qc) 0%Qc d) in H; [|rewrite map_length; lia].
      rewrite map_nth, Np in H by auto. exact H.
    + intros [Lu H]. apply forall2_of_nth with (da := segment (0, 0)%Qc) (db := 0%Qc); [rewrite map_length; lia|].
      intros d Hd. rewrite map_length in Hd. rewrite map_nth, Np by lia. apply H. lia.
  - intros us d D Hd. apply (from_bounds_value limit plo phi lo hi L b us d E L1 L2); auto.
    eapply Forall_impl; [|exact F]. cbn. now intros ab [_ H].
Qed.

Lemma C63_example_holds :
  (exists s, box 10 [qc 2 1; qc 3 1]%Qc = Some s /\ map (sp_value s [qc 1 2; qc 1 3]) [0; 1] = [1; 1]%Qc) /\
  (exists s, from_bounds 10 [qc (-1) 1; 0]%Qc [1; qc 4 1]%Qc [0; 1]%Qc [qc 2 1; 0]%Qc = Some s /\
     map (sp_value s [0; 1]%Qc) [0; 1] = [1; qc 3 4]%Qc).
Proof. split; eexists; (split; [vm_compute; reflexivity|]); qceq. Qed.

Lemma C63_low_refuted_holds :
  exists plo phi lo hi, (plo < phi)%Qc /\ (lo < hi)%Qc /\ from_bounds 10 [plo] [phi] [lo] [hi] = None.
Proof. exists (qc (-2) 1), 1%Qc, 0%Qc, 1%Qc. split; [reflexivity|]. split; [reflexivity|]. vm_compute. reflexivity. Qed.

Lemma C64_arc_partial_holds :
  forall O limit radius angle asked start degree, constants O -> square O -> 2 <= limit ->
  let rad := radians O (Some angle) degree in
  let rads := radians O (Some start) degree in
  let x0 := (radius * o_cos O rads)%Qc in
  let y0 := (radius * o_sin O rads)%Qc in
  exists n, enough_spans O rad (Some asked) n /\
  ((exists r, arc O limit radius angle asked start degree = Some r) <->
     n = 1 \/ (o_pi O <= qabs rad)%Qc \/ (1 < asked)%Z) /\
  let a := (rad / (inj 2 * inj n))%Qc in
  (circular O a -> rotates O None a ->
   forall r, arc O limit radius angle asked start degree = Some r ->
     (forall t, sp_domain r [t] <-> (0 <= t)%Qc /\ (t <= inj n)%Qc) /\
     (forall m, m <= n ->
        let c := o_cos O (inj m * rad / inj n)%Qc in
        let s := o_sin O (inj m * rad / inj n)%Qc in
        sp_value r [inj m] 0 = (c * x0 - s * y0)%Qc /\ sp_value r [inj m] 1 = (s * x0 + c * y0)%Qc) /\
     (forall t, (0 <= t)%Qc -> (t <= inj n)%Qc ->
        (sp_value r [t] 0 * sp_value r [t] 0 + sp_value r [t] 1 * sp_value r [t] 1)%Qc = (x0 * x0 + y0 * y0)%Qc)).
Proof.
  intros O limit radius angle asked start degree Cn Sq Hl rad rads x0 y0.
  destruct (arc_spec O limit radius angle asked start degree Cn Hl Sq) as (n & En & E).
  exists n. split; [exact En|]. destruct En as (Hn & _).
  fold rad in E.
  set (nurbs := qleb (o_pi O) (qabs rad) || (1 <? asked)%Z) in *.
  assert (Enu : nurbs = true <-> (o_pi O <= qabs rad)%Qc \/ (1 < asked)%Z).
  { unfold nurbs. rewrite orb_true_iff, Z.ltb_lt. destruct (qleb_spec (o_pi O) (qabs rad)); intuition easy. }
  split.
  { rewrite E. destruct (nurbs || (n =? 1)) eqn:B.
    - apply orb_true_iff in B. rewrite Nat.eqb_eq in B. split; [intros _; tauto|intros _; eauto].
    - apply orb_false_iff in B. destruct B as [B1 B2]. apply Nat.eqb_neq in B2. split; [intros [r H]; discriminate|].
      intros [H|H]; [lia|]. apply Enu in H. congruence. }
  intros a Ci Ro r Er. rewrite E in Er. destruct (nurbs || (n =? 1)) eqn:B; [|discriminate]. injection Er as <-.
  set (p := [x0; y0]).
  set (S0 := start_spline p nurbs).
  assert (Hkv : has_kvs S0 = nurbs) by (unfold S0, start_spline, has_kvs; cbn; now destruct nurbs).
  assert (Hb : has_kvs S0 = false -> n = 1).
  { rewrite Hkv. intros Hf. rewrite Hf in B. now apply Nat.eqb_eq. }
  pose proof (start_sound limit p nurbs Hl eq_refl) as So.
  pose proof (start_domain p nurbs) as D.
  assert (V : forall t d, sp_value (arc_result O radius angle asked start degree n) [t] d =
              sp_value (turn_result O S0 2 None None a n) ([0%Qc] ++ [t]) d).
  { intros t d. apply arc_value. }
  assert (X : forall al be d, turned None al be (fun e => embedded_in 2 (sp_value S0 [0%Qc]) e - origin None e)%Qc d =
              (al * (if d <? 2 then nth d p 0 else 0) + be * match d with 0 => - y0 | _ => x0 end)%Qc).
  { intros al be d. unfold turned, axial, quarter, embedded_in, origin. unfold S0. rewrite !start_value.
    change (0 <? 2) with true. change (1 <? 2) with true. cbn iota.
    destruct d; cbn [p nth]; [change (0 <? 2) with true|]; ring. }
  split; [|split].
  - intros t. rewrite <- (turn_domain S0 n t Hn Hb). unfold sp_domain, arc_result. cbn [sp_axes]. split.
    + intros H. inversion H; auto.
    + intros H. constructor; [exact H|constructor].
  - intros m Hm. rewrite !V.
    rewrite !(turn_knots O limit 2 S0 2 None None a n So (le_n 2) eq_refl I I Hn Hb Ci Ro I [0%Qc] m _ D Hm) by lia.
    rewrite !X. unfold a. rewrite half_angle by auto. change (0 <? 2) with true. change (1 <? 2) with true. cbn [origin nth p]. split; ring.
  - intros t T0 T1. rewrite !V.
    destruct (turn_exact O limit 2 S0 2 None None a n So (le_n 2) eq_refl I I Hn Hb Ci Ro I [0%Qc] t ltac:(discriminate) D T0 T1)
      as (al & be & C & H).
    rewrite !H by lia. rewrite !X. change (0 <? 2) with true. change (1 <? 2) with true. cbn [origin nth p].
    transitivity ((al * al + be * be) * (x0 * x0 + y0 * y0))%Qc; [ring|rewrite C; ring].
Qed.

Lemma C64_example_holds :
  constants turn_oracles /\ square turn_oracles /\
  circular turn_oracles (1 / (inj 2 * inj 1))%Qc /\ rotates turn_oracles None (1 / (inj 2 * inj 1))%Qc /\
  exists r, arc turn_oracles 10 (qc 5 1) 1 (-1) (qc 1 2) false = Some r /\
    map (sp_value r [0%Qc]) [0; 1] = [qc 3 1; qc 4 1] /\ map (sp_value r [qc 1 2]) [0; 1] = [qc (-7) 5; qc 24 5] /\
    map (sp_value r [1%Qc]) [0; 1] = [qc (-117) 25; qc 44 25].
Proof.
  assert (1 / (inj 2 * inj 1) = qc 1 2)%Qc as E by qceq. rewrite E.
  split; [split; reflexivity|]. split; [now intros [|] ?|]. split; [exact turn_oracles_circular|]. split; [apply matrix_rotates; reflexivity|].
  eexists. split; [vm_compute; reflexivity|]. split; [qceq|]. split; qceq.
Qed.

Lemma C64_gap_refuted_holds :
  exists angle, (0 < angle)%Qc /\ (angle < o_pi turn_oracles)%Qc /\
    arc turn_oracles 10 1 angle (-1) 0 false = None.
Proof.
  exists (qc 22 7 - qc 1 2000)%Qc. split; [reflexivity|]. split; [reflexivity|]. vm_compute. reflexivity.
Qed.
