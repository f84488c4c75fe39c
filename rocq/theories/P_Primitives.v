(** Proofs about primitives. *)
From Coq Require Import List Arith ZArith Lia Bool QArith Qcanon Qround Sorted.
From Verif Require Import Base BaseRadix BaseQc S_Grid P_Grid S_Spline P_Spline S_Value P_Value M_Core S_Core P_Core
  M_Files S_Files P_Files M_Bezier P_Bezier M_Elevate P_Elevate S_Knots S_Pieces P_Pieces M_Create S_Create P_Create P_Revolve
  P_Shapes W_Create M_Primitives S_Primitives P_Round.
From Verif Require P_FitSurf.
Import ListNotations.
Local Open Scope list_scope.
Local Open Scope nat_scope.

Lemma created_make limit s i : created limit (name_of s) i = make limit s i.
Proof. reflexivity. Qed.

Lemma room_knots limit dim dim' s : sound limit dim s -> has_kvs s = true -> length (sp_axes s) < limit -> room limit dim' s.
Proof.
  intros ((degs & kvs & cps & ws & _ & _ & _ & H & _) & _) Hv Hl. split; [exact Hl|]. intros (p & Hp). exfalso. unfold has_kvs in Hv.
  destruct kvs as [kvs|].
  - clear Hv Hl. revert Hp. induction H as [|x y l l' (q & ->) F IH]; [easy|]. intros [Hx|Hx]; [discriminate|auto].
  - destruct H as [|x l (q & ->) F]; discriminate.
Qed.

(** * Revolving rational splines *)
Definition segs (O : oracles) (rad : Qc) (asked : option Z) : nat := Z.to_nat (spans O rad asked).
Lemma segs_enough O rad asked : constants O -> enough_spans O rad asked (segs O rad asked).
Proof. intros C. apply (spans_enough O rad asked C). Qed.
Lemma revolution_segs O limit dim s axis center angle asked degree i : constants O -> sound limit dim s ->
  revolved O s axis center angle asked degree = Some i ->
  let n := segs O (radians O angle degree) asked in
    let dim' := revolved_dim dim axis in
    let k := direction O axis in
    let a := (radians O angle degree / (inj 2 * inj n))%Qc in
    dim <= dim' /\ dim' = space (as_vector k) /\ match k with Some l => length l = 3 | None => True end /\
    match center with Some c => length c = dim' | None => True end /\ (has_kvs s = false -> n = 1) /\
    match axis with Some v => (o_tolerance O < qabs (o_norm O v))%Qc | None => True end /\
    i = turn_inputs O s dim' k center a n.
Proof.
  intros HO So H. destruct (revolved_spec O limit dim s axis center angle asked degree HO So) as (n' & En' & _ & E).
  rewrite E in H. destruct (_ && _) eqn:B in H; [|discriminate]. injection H as <-.
  rewrite !andb_true_iff in B. destruct B as ((((B1 & B2) & B3) & B4) & B5).
  assert (n' = segs O (radians O angle degree) asked) as -> by (unfold segs; rewrite En', Nat2Z.id; reflexivity). cbn zeta. apply Nat.leb_le in B1. split; [exact B1|].
  assert (revolved_dim dim axis = space (as_vector (direction O axis)) /\ match direction O axis with Some l => length l = 3 | None => True end) as [X1 X2].
  { unfold revolved_dim, direction in *. destruct axis as [v|]; cbn [as_vector option_map space].
    - apply orb_true_iff in B2. rewrite !Nat.eqb_eq in B2. destruct (Nat.eqb_spec (length v) 3); cbn [option_map space].
      + split; [auto|]. now rewrite map_length.
      + split; [destruct B2; [assumption|contradiction]|auto].
    - apply Nat.eqb_eq in B3. auto. }
  split; [exact X1|]. split; [exact X2|]. split; [destruct center; [now apply Nat.eqb_eq|easy]|].
  split; [intros K; rewrite K in B5; now apply Nat.eqb_eq|]. split; [|reflexivity].
  destruct axis as [v|]; [|easy]. destruct (qleb_spec (qabs (o_norm O v)) (o_tolerance O)) as [L|L]; [discriminate|]. qlra.
Qed.

Section Step.
Variables (eps : Qc) (O : oracles) (limit dim : nat) (s : spline) (axis center : option (list Qc)).
Let dim' := revolved_dim dim axis.
Let k := as_vector (direction O axis).
Let from us e := (embedded_in dim (sp_value s us) e - origin center e)%Qc.

(** [r] is [s] turned in n segments of twice the angle a. *)
Definition turned_to (n : nat) (a : Qc) (r : spline) : Prop :=
  sound limit dim' r /\ sp_weights r <> None /\ has_kvs r = has_kvs s /\ length (sp_axes r) = length (sp_axes s) + 1 /\
  (forall us t, sp_domain r (us ++ [t]) <-> sp_domain s us /\ (0 <= t)%Qc /\ (t <= inj n)%Qc) /\
  (forall us m d, sp_domain s us -> m <= n -> d < dim' ->
     sp_value r (us ++ [inj m]) d =
     (origin center d + turned k (fst (turns (o_cos O a) (o_sin O a) (2 * m))) (snd (turns (o_cos O a) (o_sin O a) (2 * m))) (from us) d)%Qc) /\
  (forall us t, sp_domain s us -> (0 <= t)%Qc -> (t <= inj n)%Qc ->
     exists al be, nearly_unit eps n al be /\
       forall d, d < dim' -> sp_value r (us ++ [t]) d = (origin center d + turned k al be (from us) d)%Qc).

Lemma turn_step angle asked degree i : constants O -> small eps -> sound limit dim s -> sp_weights s <> None ->
  revolved O s axis center angle asked degree = Some i -> room limit dim' s ->
  match axis with Some v => measures O v | None => True end ->
  let rad := radians O angle degree in
  let n := segs O rad asked in
  let a := (rad / (inj 2 * inj n))%Qc in
  (nearly_circular eps O a -> rotates O (direction O axis) a -> exists r, make limit s i = Some r /\ turned_to n a r).
Proof.
  intros Cn Hs So Hw E R Me rad n a Nc Ro.
  destruct (revolution_segs O limit dim s axis center angle asked degree i Cn So E) as (Hd & Hk & Hk3 & Hc & Hb & Hax & ->).
  fold rad n a in Hb |- *. destruct (segs_enough O rad asked Cn) as (Hn & _). fold n in Hn. clearbody n.
  destruct (room_kvs _ _ _ _ So R) as [R1 R2].
  assert (Un : unit_axis (as_vector (direction O axis))).
  { apply direction_unit; auto. destruct axis; auto. }
  exists (turn_result O s dim' (direction O axis) center a n). split; [|split; [|split; [|split; [|split; [|split; [|split]]]]]].
  - apply (turn_make O limit dim s dim' (direction O axis) center a n So Hd Hk Hk3 Hc Hn Hb); auto.
    destruct Ro as [Ro _]. destruct (direction O axis); exact Ro.
  - now apply (round_sound eps O limit dim s dim' (direction O axis) center a n).
  - unfold turn_result, swept. cbn [sp_weights]. destruct (sp_weights s); [discriminate|congruence].
  - unfold turn_result, swept, has_kvs. cbn [sp_axes]. destruct So as (St & _).
    destruct (storable_core limit s St) as (cps & ws & _ & _ & (Nd & _) & _). unfold core_degrees in Nd. destruct (sp_axes s); [now contradiction Nd|reflexivity].
  - unfold turn_result, swept. cbn [sp_axes]. now rewrite app_length.
  - intros us t. rewrite <- (turn_domain s n t Hn Hb). unfold sp_domain, turn_result, swept. cbn [sp_axes]. split.
    + intros H. apply Forall2_app_inv_l in H as (l1 & l2 & H1 & H2 & H3).
      inversion H2 as [|? x ? ? Hx H4]; subst. inversion H4; subst. apply app_inj_tail in H3 as [-> ->]. now split.
    + intros [H1 H2]. apply Forall2_app; auto.
  - exact (round_knots eps O limit dim s dim' (direction O axis) center a n So Hd Hk Hk3 Hc Hn Hb Nc Ro Un Hw).
  - exact (round_values eps O limit dim s dim' (direction O axis) center a n So Hd Hk Hk3 Hc Hn Hb Hs Nc Ro Un Hw).
Qed.
End Step.

(** Without an axis, about the origin of the plane. *)
Lemma turn_plane eps O limit s angle asked degree : constants O -> small eps -> sound limit 2 s -> sp_weights s <> None ->
  has_kvs s = true -> length (sp_axes s) < limit ->
  let rad := radians O (Some angle) degree in
  let n := segs O rad (Some asked) in
  let a := (rad / (inj 2 * inj n))%Qc in
  (nearly_circular eps O a -> rotates O None a -> exists r, turned_spline O limit s None None angle asked degree = Some r /\ turned_to eps O limit 2 s None None n a r).
Proof.
  intros Cn Hs So Hw Hv Hl rad n a.
  destruct (revolved_spec O limit 2 s None None (Some angle) (Some asked) degree Cn So) as (n0 & _ & _ & E).
  cbn [revolved_dim Nat.leb Nat.eqb orb andb] in E. rewrite Hv in E. cbn [orb andb] in E.
  unfold turned_spline. rewrite E.
  pose proof (room_knots limit 2 2 s So Hv Hl) as R.
  exact (turn_step eps O limit 2 s None None (Some angle) (Some asked) degree _ Cn Hs So Hw E R I).
Qed.

Lemma direction_ex O : o_norm O ex = 1%Qc -> direction O (Some ex) = Some ex.
Proof.
  intros H. unfold direction, ex in *. cbn [length Nat.eqb map]. rewrite H.
  replace (1 / 1)%Qc with 1%Qc by (field; discriminate). replace (0 / 1)%Qc with 0%Qc by (field; discriminate). reflexivity.
Qed.
Lemma turned_ex al be (x : nat -> Qc) : x 2 = 0%Qc -> turned (as_vector (Some ex)) al be x 0 = x 0 /\
  turned (as_vector (Some ex)) al be x 1 = (al * x 1%nat)%Qc /\ turned (as_vector (Some ex)) al be x 2 = (be * x 1%nat)%Qc.
Proof. intros H. unfold turned, axial, quarter, as_vector, ex. cbn [option_map nth]. rewrite !H. repeat split; ring. Qed.

(** About the first axis, through the origin. *)
Lemma turn_space eps O limit s center angle asked degree : constants O -> small eps -> sound limit 2 s -> sp_weights s <> None ->
  has_kvs s = true -> length (sp_axes s) < limit -> o_norm O ex = 1%Qc -> (o_tolerance O < 1)%Qc -> center = None \/ center = Some [0; 0; 0]%Qc ->
  let rad := radians O (Some angle) degree in
  let n := segs O rad (Some asked) in
  let a := (rad / (inj 2 * inj n))%Qc in
  (nearly_circular eps O a -> rotates O (Some ex) a -> exists r, turned_spline O limit s (Some ex) center angle asked degree = Some r /\
     sound limit 3 r /\ (forall us t, sp_domain r (us ++ [t]) <-> sp_domain s us /\ (0 <= t)%Qc /\ (t <= inj n)%Qc) /\
     (forall us m, sp_domain s us -> m <= n ->
        let c := fst (turns (o_cos O a) (o_sin O a) (2 * m)) in
        let s' := snd (turns (o_cos O a) (o_sin O a) (2 * m)) in
        map (sp_value r (us ++ [inj m])) [0; 1; 2] = [sp_value s us 0; c * sp_value s us 1; s' * sp_value s us 1]%Qc) /\
     (forall us t, sp_domain s us -> (0 <= t)%Qc -> (t <= inj n)%Qc ->
        exists al be, nearly_unit eps n al be /\
          map (sp_value r (us ++ [t])) [0; 1; 2] = [sp_value s us 0; al * sp_value s us 1; be * sp_value s us 1]%Qc)).
Proof.
  intros Cn Hs So Hw Hv Hl Hx Ht Hc rad n a Nc Ro.
  destruct (revolved_spec O limit 2 s (Some ex) center (Some angle) (Some asked) degree Cn So) as (n0 & _ & _ & E).
  cbn [revolved_dim length ex Nat.leb Nat.eqb orb andb] in E. fold ex in E. rewrite Hv, Hx in E.
  assert (qleb (qabs 1) (o_tolerance O) = false) as Eq. { change (qabs 1) with 1%Qc. destruct (qleb_spec 1 (o_tolerance O)); [exfalso; qlra|reflexivity]. }
  rewrite Eq in E. assert ((match center with Some c => length c =? 3 | None => true end) = true) as Ec by (destruct Hc as [-> | ->]; reflexivity).
  rewrite Ec in E. cbn [negb orb andb] in E.
  pose proof (room_knots limit 2 3 s So Hv Hl) as R.
  assert (measures O ex) as Me by (unfold measures; rewrite Hx; unfold dot, ex; cbn; ring).
  destruct (turn_step eps O limit 2 s (Some ex) center (Some angle) (Some asked) degree _ Cn Hs So Hw E R Me) as (r & Er & T); [exact Nc|now rewrite (direction_ex O Hx)|]. fold rad n a in T. rewrite (direction_ex O Hx) in Er.
  exists r. unfold turned_spline. split; [rewrite E, (direction_ex O Hx); exact Er|]. destruct T as (T1 & _ & _ & _ & T2 & T3 & T4).
  split; [exact T1|]. split; [exact T2|].
  assert (forall d, origin center d = 0%Qc) as Eo'.
  { intros d. unfold origin. destruct Hc as [-> | ->]; [easy|]. now destruct d as [|[|[|[|d]]]]. }
  assert (forall us d, embedded_in 2 (sp_value s us) d - origin center d = if d <? 2 then sp_value s us d else 0)%Qc as Eo.
  { intros us d. rewrite Eo'. unfold embedded_in. destruct (d <? 2); ring. }
  rewrite (direction_ex O Hx) in T3, T4. split.
  - intros us m D Hm. cbn zeta. cbn [map]. rewrite !T3 by (auto; cbn; lia). rewrite !Eo'.
    destruct (turned_ex (fst (turns (o_cos O a) (o_sin O a) (2 * m))) (snd (turns (o_cos O a) (o_sin O a) (2 * m)))
      (fun e => embedded_in 2 (sp_value s us) e - origin center e)%Qc) as (-> & -> & ->); [now rewrite Eo|].
    rewrite !Eo. change (0 <? 2) with true. change (1 <? 2) with true. cbn iota. f_equal; [ring|f_equal; [ring|f_equal; ring]].
  - intros us t D T0' T1'. destruct (T4 us t D T0' T1') as (al & be & N & V). exists al, be. split; [exact N|].
    cbn [map]. rewrite !V by (cbn; lia). rewrite !Eo'.
    destruct (turned_ex al be (fun e => embedded_in 2 (sp_value s us) e - origin center e)%Qc) as (-> & -> & ->); [now rewrite Eo|].
    rewrite !Eo. change (0 <? 2) with true. change (1 <? 2) with true. cbn iota. f_equal; [ring|f_equal; [ring|f_equal; ring]].
Qed.

(** * Disk *)
Definition radial (ri ro : Qc) : spline := Spl [KnotAxis 1 (bezier_knots 1)] [[ri; 0]; [ro; 0]]%Qc (Some [1; 1]%Qc).
Lemma radial_created limit ri ro : 1 <= limit -> created limit CNurbs
  (Inputs (Some [1%Z]) (Some [[0; 0; 1; 1]%Qc]) (Some [[ri; 0]; [ro; 0]]%Qc) (Some [1; 1]%Qc)) = Some (radial ri ro).
Proof.
  intros Hl. change CNurbs with (name_of (radial ri ro)). rewrite created_make.
  rewrite (make_accepts limit (radial ri ro) _ [1%Z] (Some [[0; 0; 1; 1]%Qc]) [[ri; 0]; [ro; 0]]%Qc (Some [1; 1]%Qc)); [reflexivity| | |].
  - unfold complete. cbn. repeat split; discriminate.
  - split; [discriminate|]. split; [constructor; [apply (bezier_fit 1)|constructor]|].
    split; [exists 2; split; [lia|now repeat constructor]|]. split; reflexivity.
  - split; [cbn; lia|]. constructor; [apply (bezier_high 1)|constructor].
Qed.
Lemma radial_sound limit ri ro : 1 <= limit -> sound limit 2 (radial ri ro).
Proof.
  intros Hl. refine (conj _ (conj _ (conj _ _))).
  - exists [1%Z], (Some [[0; 0; 1; 1]%Qc]), [[ri; 0]; [ro; 0]]%Qc, (Some [1; 1]%Qc).
    refine (conj _ (conj _ _)).
    + split; [discriminate|]. split; [constructor; [apply (bezier_fit 1)|constructor]|].
      split; [exists 2; split; [lia|now repeat constructor]|]. split; reflexivity.
    + split; [cbn; lia|]. constructor; [apply (bezier_high 1)|constructor].
    + unfold has_properties, radial. cbn. repeat split. constructor; [now exists 1|constructor].
  - split; [|split; reflexivity]. constructor; [apply (bezier_knots_wf 1)|constructor].
  - now repeat constructor.
  - now repeat constructor.
Qed.
Lemma b10 t : bernstein 1 0 t = (1 - t)%Qc.
Proof. rewrite bernstein_S0, bernstein_00. ring. Qed.
Lemma b11 t : bernstein 1 1 t = t.
Proof. rewrite bernstein_SS, bernstein_00, bernstein_gt by lia. ring. Qed.
Lemma b20 t : bernstein 2 0 t = ((1 - t) * (1 - t))%Qc.
Proof. now rewrite bernstein_S0, b10. Qed.
Lemma b21 t : bernstein 2 1 t = ((1 + 1) * t * (1 - t))%Qc.
Proof. rewrite bernstein_SS, b10, b11. ring. Qed.
Lemma b22 t : bernstein 2 2 t = (t * t)%Qc.
Proof. rewrite bernstein_SS, b11, bernstein_gt by lia. ring. Qed.
Lemma radial_value ri ro u d : sp_value (radial ri ro) [u] d = match d with 0 => ri + u * (ro - ri) | _ => 0 end%Qc.
Proof.
  rewrite sp_value_functional. cbn [radial sp_axes sp_cps sp_weights]. rewrite !functional_axis, bezier_knots_n. cbn [Nat.add seq map qsum fold_right].
  rewrite !bezier_knots_fun by lia. rewrite !b10, !b11. cbn [nth].
  replace ((1 - u) * 1 + (u * 1 + 0))%Qc with 1%Qc by ring. destruct d as [|[|[|d]]]; cbn [nth]; field; discriminate.
Qed.
Lemma radial_domain ri ro us : sp_domain (radial ri ro) us <-> exists u, us = [u] /\ (0 <= u)%Qc /\ (u <= 1)%Qc.
Proof.
  unfold sp_domain. cbn [radial sp_axes]. split.
  - intros H. inversion H as [|? u ? l Hu Hl]; subst. inversion Hl; subst. exists u. split; [reflexivity|exact Hu].
  - intros (u & -> & Hu). constructor; [exact Hu|constructor].
Qed.

Lemma turned_flat al be (x : nat -> Qc) : x 1 = 0%Qc -> turned None al be x 0 = (al * x 0%nat)%Qc /\ turned None al be x 1 = (be * x 0%nat)%Qc.
Proof. intros H. unfold turned, axial, quarter. rewrite !H. split; ring. Qed.
Lemma two_of {A} (P : A -> A -> Prop) us t : (exists u, us ++ [t] = [u; t] /\ P u t) <-> exists u, us = [u] /\ P u t.
Proof.
  split; intros (u & E & H); exists u; (split; [|exact H]).
  - change [u; t] with ([u] ++ [t]) in E. now apply app_inj_tail in E.
  - now rewrite E.
Qed.
Lemma disk_shape eps O limit ro inner angle asked degree : constants O -> small eps -> 2 <= limit ->
  let rad := radians O (Some angle) degree in
  let R u := (inner_of inner + u * (ro - inner_of inner))%Qc in
  let n := segs O rad (Some asked) in
  let a := (rad / (inj 2 * inj n))%Qc in
  (nearly_circular eps O a -> rotates O None a ->
   exists r, disk O limit ro inner angle asked degree = Some r /\
     sound limit 2 r /\ sp_weights r <> None /\ has_kvs r = true /\ length (sp_axes r) = 2 /\
     (forall us, sp_domain r us <-> exists u t, us = [u; t] /\ ((0 <= u)%Qc /\ (u <= 1)%Qc) /\ (0 <= t)%Qc /\ (t <= inj n)%Qc) /\
     (forall u m, (0 <= u)%Qc -> (u <= 1)%Qc -> m <= n ->
        let c := fst (turns (o_cos O a) (o_sin O a) (2 * m)) in
        let s := snd (turns (o_cos O a) (o_sin O a) (2 * m)) in
        map (sp_value r [u; inj m]) [0; 1] = [c * R u; s * R u]%Qc) /\
     (forall u t, (0 <= u)%Qc -> (u <= 1)%Qc -> (0 <= t)%Qc -> (t <= inj n)%Qc ->
        exists al be, nearly_unit eps n al be /\ map (sp_value r [u; t]) [0; 1] = [al * R u; be * R u]%Qc)).
Proof.
  intros Cn Hs Hl rad R n a Nc Ro. set (s := radial (inner_of inner) ro).
  destruct (turn_plane eps O limit s angle asked degree Cn Hs (radial_sound limit _ _ ltac:(lia)) ltac:(discriminate) eq_refl ltac:(cbn; lia) Nc Ro) as (r & Er & T1 & T2 & T3 & T4 & T5 & T6 & T7). fold rad n a in T5, T6, T7. clearbody n.
  exists r. split. { unfold disk. fold (inner_of inner). rewrite radial_created by lia. exact Er. }
  split; [exact T1|]. split; [exact T2|]. split; [exact T3|]. split; [exact T4|].
  assert (forall u d, (embedded_in 2 (sp_value s [u]) d - origin None d)%Qc = match d with 0 => R u | _ => 0%Qc end) as Ev.
  { intros u d. unfold embedded_in, origin, s. rewrite radial_value. unfold R. destruct d as [|[|d]]; cbn [Nat.ltb Nat.leb]; [change (0 <? 2) with true|change (1 <? 2) with true|destruct (_ <? _)]; cbn iota; ring. }
  assert (forall u al be, turned None al be (fun e => embedded_in 2 (sp_value s [u]) e - origin None e)%Qc 0 = (al * R u)%Qc /\
                          turned None al be (fun e => embedded_in 2 (sp_value s [u]) e - origin None e)%Qc 1 = (be * R u)%Qc) as Et.
  { intros u al be. destruct (turned_flat al be (fun e => embedded_in 2 (sp_value s [u]) e - origin None e)%Qc (Ev u 1)) as [E1 E2].
    rewrite E1, E2, (Ev u 0). now split. }
  split; [|split].
  - intros us. split.
    + intros D. assert (exists us' t, us = us' ++ [t]) as (us' & t & ->).
      { destruct (exists_last (l := us)) as (l & t & ->); [|eauto]. intros ->. unfold sp_domain in D. inversion D as [E|]. rewrite <- E in T4. discriminate. }
      apply T5 in D as [D T]. apply radial_domain in D as (u & -> & D). exists u, t. split; [reflexivity|]. now split.
    + intros (u & t & -> & D & T). change [u; t] with ([u] ++ [t]). apply T5. split; [|exact T]. apply radial_domain. now exists u.
  - intros u m U0 U1 Hm. cbn zeta. cbn [map]. change [u; inj m] with ([u] ++ [inj m]).
    assert (sp_domain s [u]) as D by (apply radial_domain; exists u; auto).
    rewrite !T6 by (auto; cbn; lia). change (as_vector (direction O None)) with (@None (nat -> Qc)).
    match goal with |- context [turned None ?al ?be _ 0] => destruct (Et u al be) as [-> ->] end.
    cbn [origin]. f_equal; [|f_equal]; ring.
  - intros u t U0 U1 T0 T1'. assert (sp_domain s [u]) as D by (apply radial_domain; exists u; auto).
    destruct (T7 [u] t D T0 T1') as (al & be & N & V). exists al, be. split; [exact N|]. cbn [map]. change [u; t] with ([u] ++ [t]).
    rewrite !V by (cbn; lia). change (as_vector (direction O None)) with (@None (nat -> Qc)). destruct (Et u al be) as [-> ->].
    cbn [origin]. f_equal; [|f_equal]; ring.
Qed.

(** * Sphere *)
Lemma three_of us t (P : Qc -> Qc -> Prop) (Q : Prop) : (exists u v, us = [u; v] /\ P u v) /\ Q <-> exists u v w, us ++ [t] = [u; v; w] /\ P u v /\ Q.
Proof.
  split.
  - intros [(u & v & -> & H) HQ]. now exists u, v, t.
  - intros (u & v & w & E & H & HQ). change [u; v; w] with ([u; v] ++ [w]) in E. apply app_inj_tail in E as [-> ->]. split; [|exact HQ]. now exists u, v.
Qed.
Lemma sphere_shape eps O limit ro inner angle asked degree : constants O -> small eps -> 3 <= limit -> o_norm O ex = 1%Qc -> (o_tolerance O < 1)%Qc ->
  let half := radians O (Some (inj 180)) true in
  let rad := radians O (Some angle) degree in
  let R u := (inner_of inner + u * (ro - inner_of inner))%Qc in
  let n := segs O half (Some 4%Z) in
  let n' := segs O rad (Some asked) in
  let a := (half / (inj 2 * inj n))%Qc in
  let b := (rad / (inj 2 * inj n'))%Qc in
  nearly_circular eps O a -> rotates O None a -> nearly_circular eps O b -> rotates O (Some ex) b ->
   exists r, sphere O limit ro inner angle asked degree = Some r /\ sound limit 3 r /\
     (forall us, sp_domain r us <-> exists u v t, us = [u; v; t] /\ ((0 <= u)%Qc /\ (u <= 1)%Qc) /\ ((0 <= v)%Qc /\ (v <= inj n)%Qc) /\ (0 <= t)%Qc /\ (t <= inj n')%Qc) /\
     (forall u m m', (0 <= u)%Qc -> (u <= 1)%Qc -> m <= n -> m' <= n' ->
        let (c, s) := turns (o_cos O a) (o_sin O a) (2 * m) in
        let (c', s') := turns (o_cos O b) (o_sin O b) (2 * m') in
        map (sp_value r [u; inj m; inj m']) [0; 1; 2] = [c * R u; c' * (s * R u); s' * (s * R u)]%Qc) /\
     (forall u v t, (0 <= u)%Qc -> (u <= 1)%Qc -> (0 <= v)%Qc -> (v <= inj n)%Qc -> (0 <= t)%Qc -> (t <= inj n')%Qc ->
        exists al be ga de, nearly_unit eps n al be /\ nearly_unit eps n' ga de /\
          map (sp_value r [u; v; t]) [0; 1; 2] = [al * R u; ga * (be * R u); de * (be * R u)]%Qc).
Proof.
  intros Cn Hs Hl Hx Ht half rad R n n' a b Na Ra Nb Rb.
  destruct (disk_shape eps O limit ro inner (inj 180) 4 true Cn Hs ltac:(lia) Na Ra) as (s & Es & So & Sw & Sk & Sl & Sd & Sn & Sv).
  fold half n a R in Sd, Sn, Sv.
  destruct (turn_space eps O limit s None angle asked degree Cn Hs So Sw Sk ltac:(lia) Hx Ht (or_introl eq_refl) Nb Rb) as (r & Er & Ro & Rd & Rn & Rv).
  fold rad n' b in Rd, Rn, Rv. clearbody n n'.
  exists r. split; [unfold sphere; rewrite Es; exact Er|]. split; [exact Ro|]. split; [|split].
  - intros us. split.
    + intros D. assert (exists us' t, us = us' ++ [t]) as (us' & t & ->).
      { destruct (exists_last (l := us)) as (l & t & ->); [|eauto]. intros ->. exfalso. destruct Ro as (St & _). apply (P_Shapes.storable_axes limit r St).
        unfold sp_domain in D. now inversion D. }
      apply Rd in D as [D T]. apply Sd in D as (u & v & -> & Hu & Hv). exists u, v, t. exact (conj eq_refl (conj Hu (conj Hv T))).
    + intros (u & v & t & -> & Hu & Hv & T). change [u; v; t] with ([u; v] ++ [t]). apply Rd. split; [|exact T]. apply Sd. exists u, v. exact (conj eq_refl (conj Hu Hv)).
  - intros u m m' U0 U1 Hm Hm'. specialize (Sn u m U0 U1 Hm). cbn zeta in Sn.
    assert (sp_domain s [u; inj m]) as D. { apply Sd. exists u, (inj m). exact (conj eq_refl (conj (conj U0 U1) (conj (inj_nonneg m) (inj_le _ _ Hm)))). }
    specialize (Rn _ m' D Hm'). cbn zeta in Rn. destruct (turns (o_cos O a) (o_sin O a) (2 * m)) as [c s0]. destruct (turns (o_cos O b) (o_sin O b) (2 * m')) as [c' s'].
    cbn [fst snd] in *. change [u; inj m; inj m'] with ([u; inj m] ++ [inj m']). rewrite Rn. cbn [map] in Sn. injection Sn as -> ->. reflexivity.
  - intros u v t U0 U1 V0 V1 T0 T1. destruct (Sv u v U0 U1 V0 V1) as (al & be & N1 & E1).
    assert (sp_domain s [u; v]) as D by (apply Sd; exists u, v; exact (conj eq_refl (conj (conj U0 U1) (conj V0 V1)))).
    destruct (Rv _ t D T0 T1) as (ga & de & N2 & E2). exists al, be, ga, de. split; [exact N1|]. split; [exact N2|].
    change [u; v; t] with ([u; v] ++ [t]). rewrite E2. cbn [map] in E1. injection E1 as -> ->. reflexivity.
Qed.

(** * Moving *)
Definition shifted (v : list Qc) (s : spline) : spline := Spl (sp_axes s) (map (fun p => row_add p v) (sp_cps s)) (sp_weights s).
Lemma shifted_sound limit dim s v : sound limit dim s -> length v = dim -> sound limit dim (shifted v s).
Proof.
  intros ((degs & kvs & cps & ws & (C1 & C2 & (dim0 & C3 & C4) & C5 & C6) & (S1 & S2) & (P1 & P2 & P3 & P4)) & (W1 & W2 & W3) & F & Pos) Lv.
  assert (Forall (fun p => length p = dim) (map (fun p => row_add p v) (sp_cps s))) as F'.
  { rewrite Forall_map. eapply Forall_impl; [|exact F]. cbn. intros p Hp. rewrite row_add_length, Hp, Lv. apply Nat.min_id. }
  assert (0 < dim) as Hd.
  { assert (sp_cps s <> []) as N by (apply (storable_points limit); exists degs, kvs, cps, ws; repeat split; auto; exists dim0; auto).
    rewrite <- P3 in C4. destruct F as [|p l Hp F]; [easy|]. inversion C4; subst. lia. }
  refine (conj _ (conj _ (conj F' Pos))).
  - exists degs, kvs, (map (fun p => row_add p v) (sp_cps s)), ws. refine (conj _ (conj _ _)).
    + split; [exact C1|]. split; [exact C2|]. split; [exists dim; split; [exact Hd|exact F']|]. rewrite map_length, P3. split; [exact C5|exact C6].
    + split; [exact S1|]. destruct kvs; [exact S2|]. rewrite Forall_map. rewrite <- P3 in S2. apply Forall_forall. intros p Hp.
      rewrite Forall_forall in S2, F. rewrite row_add_length, Lv. specialize (S2 p Hp). lia.
    + repeat split; auto.
  - split; [exact W1|]. cbn [shifted sp_cps sp_weights]. rewrite map_length. split; [exact W2|exact W3].
Qed.
Lemma shifted_value limit dim s v us d : sound limit dim s -> length v = dim -> sp_weights s <> None -> sp_domain s us -> d < dim ->
  sp_value (shifted v s) us d = (sp_value s us d + nth d v 0)%Qc.
Proof.
  intros (_ & (W1 & W2 & W3) & F & Pos) Lv Hw D Hd. rewrite !sp_value_functional. cbn [shifted sp_axes sp_cps sp_weights].
  destruct (sp_weights s) as [ws|]; [|congruence].
  pose proof (functional_pos (sp_axes s) us _ ws W1 D W3 eq_refl Pos) as P.
  set (W := functional (sp_axes s) us (fun g => nth g ws 0%Qc)) in *.
  rewrite (functional_ext _ _ _ (fun g => (nth g ws 0 * nth d (nth g (sp_cps s) []) 0 + nth d v 0 * nth g ws 0)%Qc)).
  - rewrite functional_add, functional_mul. fold W. field. intros E. rewrite E in P. discriminate.
  - clear - D. unfold sp_domain in D. induction D; cbn; lia.
  - intros g Hg. unfold sp_res in W2. rewrite (nth_indep _ [] (row_add [] v)) by (rewrite map_length, W2; exact Hg).
    rewrite (map_nth (fun p => row_add p v)). rewrite row_add_nth; [ring|]. rewrite Lv. rewrite Forall_forall in F. apply F. apply nth_In. rewrite W2. exact Hg.
Qed.

(** * Torus *)
Definition full_or (O : oracles) (a : option Qc) : Qc := match a with Some a => a | None => (inj 2 * o_pi O)%Qc end.
Definition torus_degree (ta sa : option Qc) (degree : bool) : bool :=
  match sa with Some _ => match ta with Some _ => degree | None => false end | None => false end.
Lemma torus_angles O ta sa degree : (degree = true -> ta = None <-> sa = None) ->
  radians O (Some (full_or O ta)) (torus_degree ta sa degree) = radians O ta degree /\
  radians O (Some (full_or O sa)) (torus_degree ta sa degree) = radians O sa degree.
Proof. unfold full_or, torus_degree. destruct degree, ta, sa; intros H; split; try reflexivity; specialize (H eq_refl); exfalso; assert (A : forall P : Prop, P) by (intros; destruct H as [H1 H2]; try discriminate (H1 eq_refl); discriminate (H2 eq_refl)); apply A. Qed.

Lemma around eps O limit s Rt angle asked degree : constants O -> small eps -> 3 <= limit -> o_norm O ex = 1%Qc -> (o_tolerance O < 1)%Qc ->
  sound limit 2 s -> sp_weights s <> None -> has_kvs s = true -> length (sp_axes s) = 2 ->
  let rad := radians O (Some angle) degree in
  let n := segs O rad (Some asked) in
  let a := (rad / (inj 2 * inj n))%Qc in
  nearly_circular eps O a -> rotates O (Some ex) a ->
  exists r, turned_spline O limit (shifted [0%Qc; Rt] s) (Some ex) (Some [0; 0; 0]%Qc) angle asked degree = Some r /\
     sound limit 3 r /\ (forall us t, sp_domain r (us ++ [t]) <-> sp_domain s us /\ (0 <= t)%Qc /\ (t <= inj n)%Qc) /\
     (forall us m, sp_domain s us -> m <= n ->
        let c := fst (turns (o_cos O a) (o_sin O a) (2 * m)) in
        let s' := snd (turns (o_cos O a) (o_sin O a) (2 * m)) in
        map (sp_value r (us ++ [inj m])) [0; 1; 2] = [sp_value s us 0; c * (Rt + sp_value s us 1); s' * (Rt + sp_value s us 1)]%Qc) /\
     (forall us t, sp_domain s us -> (0 <= t)%Qc -> (t <= inj n)%Qc ->
        exists al be, nearly_unit eps n al be /\
          map (sp_value r (us ++ [t])) [0; 1; 2] = [sp_value s us 0; al * (Rt + sp_value s us 1); be * (Rt + sp_value s us 1)]%Qc).
Proof.
  intros Cn Hs Hl Hx Ht So Hw Hv Ha rad n a Nc Ro. set (s' := shifted [0%Qc; Rt] s).
  destruct (turn_space eps O limit s' (Some [0; 0; 0]%Qc) angle asked degree Cn Hs (shifted_sound _ _ _ [0%Qc; Rt] So eq_refl) Hw Hv ltac:(cbn; lia) Hx Ht
    (or_intror eq_refl) Nc Ro) as (r & Er & T1 & T2 & T3 & T4).
  fold rad n a in T2, T3, T4. exists r. split; [exact Er|]. split; [exact T1|]. split; [exact T2|].
  assert (forall us, sp_domain s us -> sp_value s' us 0 = sp_value s us 0 /\ sp_value s' us 1 = (Rt + sp_value s us 1%nat)%Qc) as V.
  { intros us D. unfold s'. rewrite !(shifted_value limit 2) by (auto; lia). cbn [nth]. split; ring. }
  split.
  - intros us m D Hm. cbn zeta. destruct (V us D) as [<- <-]. now apply T3.
  - intros us t D T0 T0'. destruct (V us D) as [<- <-]. now apply T4.
Qed.

Lemma torus_disk eps O limit w Rt ro inner ta sa sn tn degree : constants O -> small eps -> 3 <= limit -> o_norm O ex = 1%Qc -> (o_tolerance O < 1)%Qc ->
  sa <> None \/ inner <> None -> (degree = true -> ta = None <-> sa = None) ->
  let sect := radians O sa degree in
  let rad := radians O ta degree in
  let R u := (inner_of inner + u * (ro - inner_of inner))%Qc in
  let n := segs O sect (Some sn) in
  let n' := segs O rad (Some tn) in
  let a := (sect / (inj 2 * inj n))%Qc in
  let b := (rad / (inj 2 * inj n'))%Qc in
  nearly_circular eps O a -> rotates O None a -> nearly_circular eps O b -> rotates O (Some ex) b ->
   exists r, torus O limit w Rt ro inner ta sa sn tn degree = Some r /\ sound limit 3 r /\
     (forall us, sp_domain r us <-> exists u v t, us = [u; v; t] /\ ((0 <= u)%Qc /\ (u <= 1)%Qc) /\ ((0 <= v)%Qc /\ (v <= inj n)%Qc) /\ (0 <= t)%Qc /\ (t <= inj n')%Qc) /\
     (forall u m m', (0 <= u)%Qc -> (u <= 1)%Qc -> m <= n -> m' <= n' ->
        let (c, s) := turns (o_cos O a) (o_sin O a) (2 * m) in
        let (c', s') := turns (o_cos O b) (o_sin O b) (2 * m') in
        map (sp_value r [u; inj m; inj m']) [0; 1; 2] = [c * R u; c' * (Rt + s * R u); s' * (Rt + s * R u)]%Qc) /\
     (forall u v t, (0 <= u)%Qc -> (u <= 1)%Qc -> (0 <= v)%Qc -> (v <= inj n)%Qc -> (0 <= t)%Qc -> (t <= inj n')%Qc ->
        exists al be ga de, nearly_unit eps n al be /\ nearly_unit eps n' ga de /\
          map (sp_value r [u; v; t]) [0; 1; 2] = [al * R u; ga * (Rt + be * R u); de * (Rt + be * R u)]%Qc).
Proof.
  intros Cn Hs Hl Hx Ht Hsec Hdeg sect rad R n n' a b Na Ra Nb Rb. destruct (torus_angles O ta sa degree Hdeg) as [Et Es].
  fold rad in Et. fold sect in Es.
  destruct (disk_shape eps O limit ro (Some (inner_of inner)) (full_or O sa) sn (torus_degree ta sa degree) Cn Hs ltac:(lia)) as (s & Ed & So & Sw & Sk & Sl & Sd & Sn & Sv);
    [rewrite Es; exact Na|rewrite Es; exact Ra|].
  rewrite Es in Sd, Sn, Sv. cbn [inner_of] in Sn, Sv. fold n a R in Sd, Sn, Sv.
  destruct (around eps O limit s Rt (full_or O ta) tn (torus_degree ta sa degree) Cn Hs Hl Hx Ht So Sw Sk Sl) as (r & Er & Ro & Rd & Rn & Rv);
    [rewrite Et; exact Nb|rewrite Et; exact Rb|].
  rewrite Et in Rd, Rn, Rv. fold n' b in Rd, Rn, Rv. clearbody n n'.
  exists r. split.
  { unfold torus. fold (full_or O ta) (full_or O sa) (torus_degree ta sa degree).
    assert ((match sa with None => match inner with None => option_map (fun p => if qleb (o_pi O) (qabs (full_or O ta)) then Spl (map with_knots (sp_axes p)) (sp_cps p) (sp_weights p) else p) (plate limit w ro)
      | Some _ => disk O limit ro (Some (inner_of inner)) (full_or O sa) sn (torus_degree ta sa degree) end
      | Some _ => disk O limit ro (Some (inner_of inner)) (full_or O sa) sn (torus_degree ta sa degree) end) = Some s) as Esec.
    { destruct sa; [exact Ed|]. destruct inner; [exact Ed|]. destruct Hsec; congruence. }
    unfold inner_of in Esec. rewrite Esec. exact Er. }
  split; [exact Ro|]. split; [|split].
  - intros us. split.
    + intros D. assert (exists us' t, us = us' ++ [t]) as (us' & t & ->).
      { destruct (exists_last (l := us)) as (l & t & ->); [|eauto]. intros ->. exfalso. destruct Ro as (St & _). apply (P_Shapes.storable_axes limit r St).
        unfold sp_domain in D. now inversion D. }
      apply Rd in D as [D T]. apply Sd in D as (u & v & -> & Hu & Hv). exists u, v, t. exact (conj eq_refl (conj Hu (conj Hv T))).
    + intros (u & v & t & -> & Hu & Hv & T). change [u; v; t] with ([u; v] ++ [t]). apply Rd. split; [|exact T]. apply Sd. exists u, v. exact (conj eq_refl (conj Hu Hv)).
  - intros u m m' U0 U1 Hm Hm'. specialize (Sn u m U0 U1 Hm). cbn zeta in Sn.
    assert (sp_domain s [u; inj m]) as D. { apply Sd. exists u, (inj m). exact (conj eq_refl (conj (conj U0 U1) (conj (inj_nonneg m) (inj_le _ _ Hm)))). }
    specialize (Rn _ m' D Hm'). cbn zeta in Rn. destruct (turns (o_cos O a) (o_sin O a) (2 * m)) as [c s0]. destruct (turns (o_cos O b) (o_sin O b) (2 * m')) as [c' s'].
    cbn [fst snd] in *. change [u; inj m; inj m'] with ([u; inj m] ++ [inj m']). rewrite Rn. cbn [map] in Sn. injection Sn as -> ->. reflexivity.
  - intros u v t U0 U1 V0 V1 T0 T1. destruct (Sv u v U0 U1 V0 V1) as (al & be & N1 & E1).
    assert (sp_domain s [u; v]) as D by (apply Sd; exists u, v; exact (conj eq_refl (conj (conj U0 U1) (conj V0 V1)))).
    destruct (Rv _ t D T0 T1) as (ga & de & N2 & E2). exists al, be, ga, de. split; [exact N1|]. split; [exact N2|].
    change [u; v; t] with ([u; v] ++ [t]). rewrite E2. cbn [map] in E1. injection E1 as -> ->. reflexivity.
Qed.

(** * Circles of one patch *)
Definition square_points (c : Qc) : list (list Qc) :=
  [[- c; - c]; [0; - ((1 + 1) * c)]; [c; - c]; [- ((1 + 1) * c); 0]; [0; 0]; [(1 + 1) * c; 0]; [- c; c]; [0; (1 + 1) * c]; [c; c]]%Qc.
Definition square_axis (kn : bool) : paxis := if kn then KnotAxis 2 (bezier_knots 2) else BezierAxis 2.
Definition square_patch (kn : bool) (c w : Qc) : spline := Spl [square_axis kn; square_axis kn] (square_points c) (Some (plate_weights w)).
Lemma square_n kn : ax_n (square_axis kn) = 3.
Proof. destruct kn; [apply bezier_knots_n|reflexivity]. Qed.
Lemma square_fun kn u i : i < 3 -> ax_fun (square_axis kn) u i = bernstein 2 i u.
Proof. intros H. destruct kn; [now apply bezier_knots_fun|reflexivity]. Qed.
Lemma square_domain kn c w us : sp_domain (square_patch kn c w) us <-> exists u v, us = [u; v] /\ ((0 <= u)%Qc /\ (u <= 1)%Qc) /\ (0 <= v)%Qc /\ (v <= 1)%Qc.
Proof.
  assert (forall t, ax_domain (square_axis kn) t <-> (0 <= t)%Qc /\ (t <= 1)%Qc) as D.
  { intros t. destruct kn; [apply (with_knots_domain (BezierAxis 2))|reflexivity]. }
  unfold sp_domain. cbn [square_patch sp_axes]. split.
  - intros H. inversion H as [|? u ? l Hu Hl]; subst. inversion Hl as [|? v ? l' Hv Hl']; subst. inversion Hl'; subst. exists u, v.
    split; [reflexivity|]. split; now apply D.
  - intros (u & v & -> & Hu & Hv). constructor; [now apply D|]. constructor; [now apply D|constructor].
Qed.
Lemma square_sound kn limit c w : 2 <= limit -> (0 < w)%Qc -> sound limit 2 (square_patch kn c w).
Proof.
  intros Hl Hw. refine (conj _ (conj _ (conj _ _))).
  - exists [2%Z; 2%Z], (if kn then Some [bezier_knots 2; bezier_knots 2] else None), (square_points c), (Some (plate_weights w)). refine (conj _ (conj _ _)).
    + split; [discriminate|]. split; [|split; [exists 2; split; [lia|now repeat constructor]|split; [now destruct kn|reflexivity]]].
      destruct kn; [constructor; [apply (bezier_fit 2)|constructor; [apply (bezier_fit 2)|constructor]]|repeat constructor; lia].
    + split; [cbn; lia|]. destruct kn; [constructor; [apply (bezier_high 2)|constructor; [apply (bezier_high 2)|constructor]]|repeat constructor; cbn; lia].
    + unfold has_properties, square_patch. cbn. destruct kn; repeat split; auto; repeat constructor; now exists 2.
  - unfold sp_wf, square_patch, sp_res. cbn [sp_axes sp_cps sp_weights map]. rewrite !square_n. split; [|split; reflexivity].
    constructor; [|constructor; [|constructor]]; (destruct kn; [apply bezier_knots_wf|exact I]).
  - now repeat constructor.
  - unfold square_patch, plate_weights. cbn [sp_weights]. repeat (constructor; [first [exact Hw|reflexivity]|]). constructor.
Qed.
Lemma square_created limit c w : 2 <= limit -> created limit CRationalBezier (Inputs (Some [2; 2]%Z) None (Some (square_points c)) (Some (plate_weights w))) = Some (square_patch false c w).
Proof.
  intros Hl. change CRationalBezier with (name_of (square_patch false c w)). rewrite created_make.
  rewrite (make_accepts limit (square_patch false c w) _ [2; 2]%Z None (square_points c) (Some (plate_weights w))); [reflexivity| | |].
  - unfold complete. cbn. repeat split; discriminate.
  - split; [discriminate|]. split; [repeat constructor; lia|]. split; [exists 2; split; [lia|now repeat constructor]|]. split; reflexivity.
  - split; [cbn; lia|]. repeat constructor; cbn; lia.
Qed.
Lemma plate_created limit w r : 2 <= limit -> plate limit w r = Some (square_patch false (r * qc 1 2)%Qc w).
Proof.
  intros Hl. unfold plate. rewrite <- (square_created limit) by exact Hl. do 4 f_equal. unfold square_points, row_scale. cbn [map].
  assert (qc 1 2 = 1 / (1 + 1))%Qc as -> by (apply Qc_is_canon; vm_compute; reflexivity).
  assert (forall a b a' b' (l l' : list (list Qc)), a = a' -> b = b' -> l = l' -> [a; b] :: l = [a'; b'] :: l') as C by (intros; now subst).
  repeat (apply C; [field; try discriminate|field; try discriminate|]). reflexivity.
Qed.
Lemma circle_created limit w r : 2 <= limit -> surface_circle limit w r = Some (square_patch false (r * w)%Qc w).
Proof.
  intros Hl. unfold surface_circle. rewrite <- (square_created limit) by exact Hl. cbn zeta. unfold square_points.
  replace (inj 2) with (1 + 1)%Qc by (apply Qc_is_canon; vm_compute; reflexivity). reflexivity.
Qed.

Definition hump (t : Qc) : Qc := ((1 + 1) * t * (1 - t))%Qc.
Definition square_den (w u v : Qc) : Qc := ((1 - hump u) * (1 - hump v) + w * (hump u * (1 - hump v) + hump v * (1 - hump u)) + hump u * hump v)%Qc.
Lemma hump_bounds t : (0 <= t)%Qc -> (t <= 1)%Qc -> (0 <= hump t)%Qc /\ (hump t + hump t <= 1)%Qc /\ ((t + t - 1) * (t + t - 1) = 1 - (1 + 1) * hump t)%Qc.
Proof.
  intros T0 T1. unfold hump. split; [|split; [|ring]].
  - apply Qc_mul_nonneg; [|qlra]. qlra.
  - assert (0 <= (t + t - 1) * (t + t - 1))%Qc by (destruct (Qclt_le_dec (t + t - 1) 0); [replace ((t + t - 1) * (t + t - 1))%Qc with ((- (t + t - 1)) * (- (t + t - 1)))%Qc by ring|]; apply Qc_mul_nonneg; qlra). clear - H. qnra.
Qed.
Lemma square_den_pos w u v : (0 < w)%Qc -> (0 <= u)%Qc -> (u <= 1)%Qc -> (0 <= v)%Qc -> (v <= 1)%Qc -> (1 <= (1 + 1) * square_den w u v)%Qc.
Proof.
  intros W U0 U1 V0 V1. destruct (hump_bounds u U0 U1) as (A1 & A2 & _). destruct (hump_bounds v V0 V1) as (B1 & B2 & _). unfold square_den.
  set (s := hump u) in *. set (t := hump v) in *. clearbody s t. clear - W A1 A2 B1 B2.
  assert (0 <= w * (s * (1 - t) + t * (1 - s)))%Qc. { apply Qc_mul_nonneg; [qlra|]. pose proof (Qc_mul_nonneg s (1 - t)%Qc A1 ltac:(qlra)). pose proof (Qc_mul_nonneg t (1 - s)%Qc B1 ltac:(qlra)). qlra. }
  assert (0 <= (1 - (s + s)) * (1 - (t + t)))%Qc by (apply Qc_mul_nonneg; qlra). qnra.
Qed.
Lemma square_value kn c w u v : (0 < w)%Qc -> (0 <= u)%Qc -> (u <= 1)%Qc -> (0 <= v)%Qc -> (v <= 1)%Qc ->
  map (sp_value (square_patch kn c w) [u; v]) [0; 1] =
  [c * (u + u - 1) * (1 + (w + w - 1) * hump v) / square_den w u v; c * (v + v - 1) * (1 + (w + w - 1) * hump u) / square_den w u v]%Qc.
Proof.
  intros W U0 U1 V0 V1. pose proof (square_den_pos w u v W U0 U1 V0 V1) as P.
  assert (square_den w u v <> 0)%Qc as N by (intros E; rewrite E in P; clear - P; qlra).
  cbn [map]. rewrite !sp_value_functional. cbn [square_patch sp_axes sp_cps sp_weights]. rewrite !P_FitSurf.functional_two, !square_n. cbn [seq map qsum fold_right Nat.add Nat.mul].
  rewrite !square_fun by lia. rewrite !b20, !b21, !b22. cbn [nth plate_weights square_points].
  match goal with |- context [(_ / ?d)%Qc] => assert (d = square_den w u v) as -> by (unfold square_den, hump; ring) end.
  assert (forall a b e, a = b -> a / e = b / e)%Qc as C by (intros; now subst). f_equal; [|f_equal]; apply C; unfold hump; ring.
Qed.

Lemma two_inj (f : nat -> Qc) a b : map f [0; 1] = [a; b] -> f 0 = a /\ f 1 = b.
Proof. cbn [map]. intros [= -> ->]. now split. Qed.

(** Squared distance from the centre. *)
Lemma square_radius c w u v x y : (0 < w)%Qc -> (0 <= u)%Qc -> (u <= 1)%Qc -> (0 <= v)%Qc -> (v <= 1)%Qc ->
  x = (c * (u + u - 1) * (1 + (w + w - 1) * hump v) / square_den w u v)%Qc ->
  y = (c * (v + v - 1) * (1 + (w + w - 1) * hump u) / square_den w u v)%Qc ->
  let s := hump u in let t := hump v in let D := square_den w u v in
  ((x * x + y * y) * (D * D) = c * c * ((1 + 1) * (D * D) - ((1 - (1 + 1) * (w * w)) * (s * s + t * t) +
      s * t * ((1 + 1 + 1 + 1) * (w * w) + (1 + 1 + 1 + 1) + (inj 8 * w - inj 6) * (s + t) + inj 8 * ((1 - w) * (1 - w)) * (s * t)))))%Qc.
Proof.
  intros W U0 U1 V0 V1 Vx Vy. cbn zeta. pose proof (square_den_pos w u v W U0 U1 V0 V1) as P.
  destruct (hump_bounds u U0 U1) as (_ & _ & A). destruct (hump_bounds v V0 V1) as (_ & _ & B).
  assert (square_den w u v <> 0)%Qc as N by (intros E; rewrite E in P; clear - P; qlra).
  assert (square_den w u v = (1 - hump u) * (1 - hump v) + w * (hump u * (1 - hump v) + hump v * (1 - hump u)) + hump u * hump v)%Qc as ED by reflexivity.
  set (s := hump u) in *. set (t := hump v) in *. set (D := square_den w u v) in *. clearbody s t D.
  assert ((x * x + y * y) * (D * D) = c * c * ((u + u - 1) * (u + u - 1) * ((1 + (w + w - 1) * t) * (1 + (w + w - 1) * t)) + (v + v - 1) * (v + v - 1) * ((1 + (w + w - 1) * s) * (1 + (w + w - 1) * s))))%Qc as ->.
  { rewrite Vx, Vy. field. exact N. }
  rewrite A, B. assert (inj 8 = (1 + 1) * (1 + 1) * (1 + 1))%Qc as -> by (apply Qc_is_canon; vm_compute; reflexivity).
  assert (inj 6 = (1 + 1) * (1 + 1 + 1))%Qc as -> by (apply Qc_is_canon; vm_compute; reflexivity).
  rewrite ED. ring.
Qed.
Lemma square_inside eps kn c w u v : small eps -> (0 < w)%Qc -> (qabs ((1 + 1) * (w * w) - 1) <= eps)%Qc ->
  (0 <= u)%Qc -> (u <= 1)%Qc -> (0 <= v)%Qc -> (v <= 1)%Qc ->
  let x := sp_value (square_patch kn c w) [u; v] 0 in
  let y := sp_value (square_patch kn c w) [u; v] 1 in
  (x * x + y * y <= (1 + 1) * (c * c) * (1 + eps))%Qc /\
  (u = 0 \/ u = 1 \/ v = 0 \/ v = 1 -> (1 + 1) * (c * c) * (1 - eps) <= x * x + y * y)%Qc.
Proof.
  intros [E0 E1] W Hw U0 U1 V0 V1 x y. destruct (two_inj _ _ _ (square_value kn c w u v W U0 U1 V0 V1)) as [Vx Vy]. pose proof (square_radius c w u v x y W U0 U1 V0 V1 Vx Vy) as E. cbn zeta in E. clear Vx Vy. clearbody x y.
  pose proof (square_den_pos w u v W U0 U1 V0 V1) as P.
  destruct (hump_bounds u U0 U1) as (A0 & A1 & _). destruct (hump_bounds v V0 V1) as (B0 & B1 & _).
  assert (u = 0 \/ u = 1 \/ v = 0 \/ v = 1 -> hump u * hump v = 0)%Qc as Z.
  { unfold hump. intros [-> |[-> |[-> | ->]]]; ring. }
  set (s := hump u) in *. set (t := hump v) in *. set (D := square_den w u v) in *. set (r := (x * x + y * y)%Qc) in *. clearbody s t D r. clear x y.
  apply qabs_bounds in Hw as [W1 W2].
  set (del := ((1 + 1) * (w * w) - 1)%Qc) in *.
  set (G := ((1 + 1 + 1 + 1) * (w * w) + (1 + 1 + 1 + 1) + (inj 8 * w - inj 6) * (s + t) + inj 8 * ((1 - w) * (1 - w)) * (s * t))%Qc) in *.
  assert (0 <= s * t)%Qc as ST by now apply Qc_mul_nonneg.
  assert (0 <= G)%Qc as HG.
  { unfold G. assert (inj 8 = (1 + 1) * (1 + 1) * (1 + 1))%Qc as -> by (apply Qc_is_canon; vm_compute; reflexivity).
    assert (inj 6 = (1 + 1) * (1 + 1 + 1))%Qc as -> by (apply Qc_is_canon; vm_compute; reflexivity).
    assert (0 <= (1 - w) * (1 - w))%Qc as Sq by (destruct (Qclt_le_dec (1 - w) 0); [replace ((1 - w) * (1 - w))%Qc with ((- (1 - w)) * (- (1 - w)))%Qc by ring|]; apply Qc_mul_nonneg; qlra).
    pose proof (Qc_mul_nonneg _ _ Sq ST) as N1. set (n1 := ((1 - w) * (1 - w) * (s * t))%Qc) in *.
    replace ((1 + 1) * (1 + 1) * (1 + 1) * ((1 - w) * (1 - w)) * (s * t))%Qc with ((1 + 1) * (1 + 1) * (1 + 1) * n1)%Qc by (unfold n1; ring).
    assert (qc 1 24 <= qc 1 2)%Qc as Qh by discriminate. assert (qc 1 2 + qc 1 2 = 1)%Qc as Q2 by (apply Qc_is_canon; vm_compute; reflexivity).
    assert (1 <= (1 + 1) * w)%Qc as W5. { destruct (Qclt_le_dec ((1 + 1) * w) 1) as [L|L]; [exfalso|exact L]. unfold del in W1. assert (w * w + w * w + w * w + w * w < 1)%Qc by (clear - L W; qnra). qlra. }
    assert (0 <= w * (s + t))%Qc as N2 by (apply Qc_mul_nonneg; qlra). assert (s + t <= 1)%Qc as Hst by qlra.
    clearbody n1. clear - N1 W1 W2 E1 Qh Q2 W5 N2 Hst A0 B0. unfold del in *. clear del.
    assert (0 <= (1 + 1) * w * (s + t) - (s + t))%Qc. { assert (0 <= ((1 + 1) * w - 1) * (s + t))%Qc as K by (apply Qc_mul_nonneg; qlra). replace ((1 + 1) * w * (s + t) - (s + t))%Qc with (((1 + 1) * w - 1) * (s + t))%Qc by ring. exact K. }
    set (ws := (w * (s + t))%Qc) in *.
    replace (((1 + 1) * (1 + 1) * (1 + 1) * w - (1 + 1) * (1 + 1 + 1)) * (s + t))%Qc with ((1 + 1) * (1 + 1) * (1 + 1) * ws - (1 + 1) * (1 + 1 + 1) * (s + t))%Qc by (unfold ws; ring).
    replace ((1 + 1) * w * (s + t))%Qc with ((1 + 1) * ws)%Qc in H by (unfold ws; ring). clearbody ws. qlra. }
  assert (0 <= s * t * G)%Qc as SG by now apply Qc_mul_nonneg. clearbody G.
  assert (0 <= c * c)%Qc as Cc by (destruct (Qclt_le_dec c 0); [replace (c * c)%Qc with ((- c) * (- c))%Qc by ring|]; apply Qc_mul_nonneg; qlra).
  assert (0 < D * D)%Qc as DD by (apply Qc_mul_pos; qlra).
  assert (0 <= s * s + t * t)%Qc as Ss by (pose proof (Qc_mul_nonneg _ _ A0 A0); pose proof (Qc_mul_nonneg _ _ B0 B0); qlra).
  assert (s * s + t * t <= (1 + 1) * (D * D))%Qc as Sd. { assert (s * s + t * t <= qc 1 2)%Qc as S1. { assert (qc 1 2 + qc 1 2 = 1)%Qc by (apply Qc_is_canon; vm_compute; reflexivity). clear - H A0 A1 B0 B1. qnra. } assert (1 <= (1 + 1 + 1 + 1) * (D * D))%Qc by (clear - P; qnra). assert (qc 1 2 + qc 1 2 = 1)%Qc by (apply Qc_is_canon; vm_compute; reflexivity). qlra. }
  replace (1 - (1 + 1) * (w * w))%Qc with (- del)%Qc in E by (unfold del; ring). clearbody del.
  set (q := (s * s + t * t)%Qc) in *. set (d2 := (D * D)%Qc) in *. set (cc := (c * c)%Qc) in *.
  assert (- (eps * q) <= del * q /\ del * q <= eps * q)%Qc as [M1 M2].
  { pose proof (Qc_mul_nonneg (eps - del)%Qc q ltac:(qlra) Ss). pose proof (Qc_mul_nonneg (eps + del)%Qc q ltac:(qlra) Ss). split; qlra. }
  assert (eps * q <= (1 + 1) * eps * d2)%Qc as M3. { pose proof (Qc_mul_nonneg eps ((1 + 1) * d2 - q)%Qc E0 ltac:(qlra)). qlra. }
  split.
  - assert (r * d2 <= (1 + 1) * cc * (1 + eps) * d2)%Qc as K.
    { rewrite E. pose proof (Qc_mul_nonneg cc ((1 + 1) * eps * d2 - del * q + s * t * G)%Qc Cc ltac:(qlra)) as K. clear - K.
      set (g := (s * t * G)%Qc) in *. clearbody g. match goal with |- (?l <= ?r)%Qc => assert (r - l = cc * ((1 + 1) * eps * d2 - del * q + g))%Qc as E by ring end. rewrite <- E in K. qlra. }
    destruct (Qclt_le_dec ((1 + 1) * cc * (1 + eps)) r) as [L|L]; [exfalso|exact L]. set (z := ((1 + 1) * cc * (1 + eps))%Qc) in *. clearbody z. clear - K L DD.
    pose proof (Qc_mul_pos (r - z)%Qc d2 ltac:(qlra) DD). qlra.
  - intros Hb. rewrite (Z Hb) in E.
    assert ((1 + 1) * cc * (1 - eps) * d2 <= r * d2)%Qc as K.
    { rewrite E. pose proof (Qc_mul_nonneg cc ((1 + 1) * eps * d2 + del * q)%Qc Cc ltac:(qlra)) as K. clear - K.
      match goal with |- (?l <= ?r)%Qc => assert (r - l = cc * ((1 + 1) * eps * d2 + del * q))%Qc as E by ring end. rewrite <- E in K. qlra. }
    destruct (Qclt_le_dec r ((1 + 1) * cc * (1 - eps))) as [L|L]; [exfalso|exact L]. set (z := ((1 + 1) * cc * (1 - eps))%Qc) in *. clearbody z. clear - K L DD.
    pose proof (Qc_mul_pos (z - r)%Qc d2 ltac:(qlra) DD). qlra.
Qed.

(** * Cones *)
(** Heights which can be told from 0. *)
Lemma last_padded p : length p = 2 -> last (zero_padded 3 p) 0%Qc = 0%Qc.
Proof. intros H. destruct p as [|x [|y [|]]]; try discriminate. reflexivity. Qed.
Lemma last_raised p h : length p = 2 -> last (row_add (zero_padded 3 p) [0%Qc; 0%Qc; h]) 0%Qc = h.
Proof. intros H. destruct p as [|x [|y [|]]]; try discriminate. unfold row_add, zero_padded. cbn. ring. Qed.
Lemma isclose_0 h : tall h -> isclose 0 h = false.
Proof.
  intros H. unfold isclose. assert (qabs (0 - h) = qabs h)%Qc as ->.
  { unfold qabs. destruct (Qclt_le_dec (0 - h) 0), (Qclt_le_dec h 0); qlra. }
  unfold tall in H. destruct (qleb_spec (qabs h) (qc 1 100000000 + qc 1 100000 * qabs h)); [exfalso; apply (Qclt_not_le _ _ H); assumption|reflexivity].
Qed.
Lemma isclose_refl h : isclose h h = true.
Proof.
  unfold isclose. assert (qabs (h - h) = 0)%Qc as -> by (replace (h - h)%Qc with 0%Qc by ring; reflexivity).
  assert (0 <= qabs h)%Qc as A by (unfold qabs; destruct (Qclt_le_dec h 0); qlra).
  assert (0 <= qc 1 100000)%Qc as B by discriminate. assert (0 <= qc 1 100000000)%Qc as C by discriminate.
  pose proof (Qc_mul_nonneg _ _ B A). set (x := qc 1 100000000) in *. set (y := (qc 1 100000 * qabs h)%Qc) in *.
  destruct (qleb_spec 0 (x + y)%Qc) as [L|L]; [reflexivity|]. clearbody x y. clear A. exfalso. qlra.
Qed.

Definition cone_result (g : spline) (h : Qc) : spline :=
  swept g (new_axis g 1 (bezier_knots 1)) [zero_padded 3; fun _ => [0%Qc; 0%Qc; h]] [1%Qc; 1%Qc].
Lemma cone_on_eq limit g h : sound limit 2 g -> has_kvs g = true -> length (sp_axes g) < limit -> tall h ->
  cone_on limit g h = Some (cone_result g h).
Proof.
  intros So Hv Hl Ht. unfold cone_on. set (v := [0%Qc; 0%Qc; h]).
  rewrite (extruded_eq limit 2 g v So) by (cbn; lia).
  rewrite (extruded_make limit 2 g v So) by (try exact Hl; try (cbn; lia); rewrite Hv; discriminate).
  cbn [option_map]. unfold cone_result, swept. cbn [sp_axes sp_cps sp_weights]. do 2 f_equal. cbn [flat_map]. rewrite !app_nil_r, map_app, !map_map.
  destruct So as (_ & _ & F & _). rewrite Forall_forall in F. f_equal.
  - apply map_ext_in. intros p Hp. change (length v) with 3. rewrite (last_padded p (F p Hp)), (isclose_0 h Ht). reflexivity.
  - apply map_ext_in. intros p Hp. change (length v) with 3. unfold v. rewrite (last_raised p h (F p Hp)), isclose_refl. reflexivity.
Qed.
Lemma cone_on_value limit g h us t : sound limit 2 g -> sp_domain g us ->
  map (sp_value (cone_result g h) (us ++ [t])) [0; 1; 2] = [(1 - t) * sp_value g us 0; (1 - t) * sp_value g us 1; t * h]%Qc.
Proof.
  intros So D. pose proof So as (St & W & F & Pos).
  assert (forall d, d < 3 -> sp_value (cone_result g h) (us ++ [t]) d = ((1 - t) * embedded_in 2 (sp_value g us) d + t * nth d [0%Qc; 0%Qc; h] 0)%Qc) as V.
  { intros d Hd. unfold cone_result.
    rewrite (swept_value g _ _ _ us t d 2 (fun j x => if j =? 0 then embedded_in 2 x d + 0 else nth d [0%Qc; 0%Qc; h] 0)%Qc); auto.
    - rewrite new_axis_n. cbn [Nat.add seq map qsum nth Nat.eqb]. rewrite !linear_fun by lia. rewrite bernstein_1_0, bernstein_1_1.
      destruct (sp_weights g); [|cbn [fold_right]; ring].
      assert ((1 - t) * 1 + (t * 1 + 0) = 1)%Qc as -> by ring. cbn [fold_right]. field. discriminate.
    - rewrite new_axis_n. reflexivity.
    - rewrite new_axis_n. reflexivity.
    - intros [|j] _; cbn [Nat.eqb]; [apply affine_coord|apply affine_const].
    - intros j A p EA Hp. rewrite Forall_forall in F. pose proof (F p Hp) as Lp.
      destruct j as [|[|j]]; cbn [nth_error] in EA; [| |destruct j; discriminate]; injection EA as <-; cbn [Nat.eqb]; [|reflexivity].
      rewrite nth_zero_padded. unfold embedded_in. destruct (Nat.ltb_spec d 2); [ring|]. rewrite nth_overflow by lia. ring. }
  cbn [map]. rewrite !V by lia. unfold embedded_in. change (0 <? 2) with true. change (1 <? 2) with true. change (2 <? 2) with false. cbn [nth].
  assert (forall a b c a' b' c' : Qc, a = a' -> b = b' -> c = c' -> [a; b; c] = [a'; b'; c']) as C by (intros; now subst). apply C; ring.
Qed.
Lemma cone_on_domain g h us t : sp_domain (cone_result g h) (us ++ [t]) <-> sp_domain g us /\ (0 <= t)%Qc /\ (t <= 1)%Qc.
Proof.
  unfold sp_domain, cone_result, swept. cbn [sp_axes].
  assert (ax_domain (new_axis g 1 (bezier_knots 1)) t <-> (0 <= t)%Qc /\ (t <= 1)%Qc) as E.
  { unfold new_axis. destruct (has_kvs g); [apply (with_knots_domain (BezierAxis 1))|reflexivity]. }
  rewrite <- E. split.
  - intros H. apply Forall2_app_inv_l in H as (l1 & l2 & H1 & H2 & H3).
    inversion H2 as [|? x ? ? Hx H4]; subst. inversion H4; subst. apply app_inj_tail in H3 as [-> ->]. now split.
  - intros [H1 H2]. apply Forall2_app; auto.
Qed.

(** * Pyramids *)
Lemma pyramid_shape limit w l h : 3 <= limit ->
  exists r, pyramid limit w l h = Some r /\ sp_axes r = repeat (BezierAxis 1) 3 /\ Forall (fun p => length p = 3) (sp_cps r) /\
    forall u v t, (0 <= u)%Qc -> (u <= 1)%Qc -> (0 <= v)%Qc -> (v <= 1)%Qc -> (0 <= t)%Qc -> (t <= 1)%Qc ->
      map (sp_value r [u; v; t]) [0; 1; 2] = [(1 - t) * (u * w) + t * (w / inj 2); (1 - t) * (v * l) + t * (l / inj 2); t * h]%Qc.
Proof.
  intros Hl. unfold pyramid. pose proof (box_spec limit [w; l; h]) as B. destruct (box limit [w; l; h]) as [b|]; [|destruct B as [B|B]; [discriminate|cbn in B; lia]].
  destruct B as (_ & (St & (W1 & W2 & _) & F & _) & Ea & Ew & V). cbn [option_map length] in *. eexists. split; [reflexivity|].
  cbn [sp_axes sp_cps]. split; [exact Ea|]. unfold sp_res in W2. rewrite Ea in W2. cbn in W2.
  set (apex := [w / inj 2; l / inj 2; h]%Qc). split.
  { apply Forall_app. split; [|rewrite Forall_map; apply Forall_forall; intros; reflexivity].
    rewrite Forall_forall in *. intros p Hp. apply F. rewrite <- (firstn_skipn 4 (sp_cps b)). apply in_or_app. now left. }
  intros u v t U0 U1 V0 V1 T0 T1.
  assert (sp_domain b [u; v; 0%Qc]) as D. { unfold sp_domain. rewrite Ea. constructor; [now split|]. constructor; [now split|]. constructor; [split; discriminate|constructor]. }
  assert (Forall2 ax_domain [BezierAxis 1; BezierAxis 1] [u; v]) as D2. { constructor; [now split|]. constructor; [now split|constructor]. }
  set (base d := functional [BezierAxis 1; BezierAxis 1] [u; v] (fun g => nth d (nth g (sp_cps b) []) 0%Qc)).
  assert (forall d, base d = (nth d [u; v; 0%Qc] 0 * nth d [w; l; h] 0)%Qc) as Eb.
  { intros d. rewrite <- (V _ d D). rewrite sp_value_functional, Ew, Ea. change (repeat (BezierAxis 1) 3) with ([BezierAxis 1; BezierAxis 1] ++ [BezierAxis 1]).
    change [u; v; 0%Qc] with ([u; v] ++ [0%Qc]). rewrite functional_snoc by reflexivity. cbn [ax_n Nat.add seq map qsum fold_right ax_fun]. rewrite b10, b11.
    unfold base. rewrite (functional_ext _ _ (fun g => nth d (nth (g + _ * 0) (sp_cps b) []) 0%Qc) (fun g => nth d (nth g (sp_cps b) []) 0%Qc)); [ring|reflexivity|].
    intros g _. now rewrite Nat.mul_0_r, Nat.add_0_r. }
  assert (forall d, sp_value (Spl (sp_axes b) (firstn 4 (sp_cps b) ++ map (fun _ => apex) (skipn 4 (sp_cps b))) (sp_weights b)) [u; v; t] d =
    ((1 - t) * base d + t * nth d apex 0)%Qc) as Vp.
  { intros d. rewrite sp_value_functional. cbn [sp_axes sp_cps sp_weights]. rewrite Ew, Ea. change (repeat (BezierAxis 1) 3) with ([BezierAxis 1; BezierAxis 1] ++ [BezierAxis 1]).
    change [u; v; t] with ([u; v] ++ [t]). rewrite functional_snoc by reflexivity. cbn [ax_n Nat.add seq map qsum fold_right ax_fun]. rewrite b10, b11.
    rewrite (functional_ext _ _ _ (fun g => nth d (nth g (sp_cps b) []) 0%Qc)).
    - fold (base d). rewrite (functional_ext _ _ _ (fun g => (nth d apex 0 * 1)%Qc)).
      + rewrite functional_mul, functional_one; [ring| |exact D2]. repeat constructor.
      + reflexivity.
      + intros g Hg. cbn in Hg. rewrite app_nth2 by (rewrite firstn_length, W2; cbn; lia). rewrite firstn_length, W2.
        rewrite (nth_indep _ [] apex) by (rewrite map_length, skipn_length, W2; cbn; lia).
        assert (forall (l0 : list (list Qc)) j, nth j (map (fun _ => apex) l0) apex = apex) as K by (induction l0 as [|? ? IH]; intros [|j]; cbn; auto).
        rewrite K. ring.
    - reflexivity.
    - intros g Hg. cbn in Hg. rewrite Nat.mul_0_r, Nat.add_0_r. rewrite app_nth1 by (rewrite firstn_length, W2; cbn; lia).
      rewrite <- (firstn_skipn 4 (sp_cps b)) at 2. rewrite app_nth1 by (rewrite firstn_length, W2; cbn; lia). reflexivity. }
  cbn [map]. rewrite !Vp, !Eb. cbn [nth apex].
  assert (forall a b c a' b' c' : Qc, a = a' -> b = b' -> c = c' -> [a; b; c] = [a'; b'; c']) as C by (intros; now subst). apply C; ring.
Qed.

(** * Tori with full sections *)
Lemma segs_at_least O rad asked : (asked <= Z.of_nat (segs O rad (Some asked)))%Z.
Proof. unfold segs, spans. destruct (Z.ltb_spec asked (minimum_spans O rad)); lia. Qed.
Lemma torus_plate eps O limit w Rt ro ta sn tn degree : constants O -> small eps -> 3 <= limit -> o_norm O ex = 1%Qc -> (o_tolerance O < 1)%Qc ->
  (0 < w)%Qc -> (qabs ((1 + 1) * (w * w) - 1) <= eps)%Qc ->
  (degree = true -> ta = None) -> (o_pi O <= qabs (radians O ta degree))%Qc ->
  let rad := radians O ta degree in
  let n' := segs O rad (Some tn) in
  let b := (rad / (inj 2 * inj n'))%Qc in
  nearly_circular eps O b -> rotates O (Some ex) b ->
   exists r, torus O limit w Rt ro None ta None sn tn degree = Some r /\ sound limit 3 r /\
     (forall u v t, sp_domain r [u; v; t] <-> ((0 <= u)%Qc /\ (u <= 1)%Qc) /\ ((0 <= v)%Qc /\ (v <= 1)%Qc) /\ (0 <= t)%Qc /\ (t <= inj n')%Qc) /\
     (forall u v, (0 <= u)%Qc -> (u <= 1)%Qc -> (0 <= v)%Qc -> (v <= 1)%Qc ->
        exists x y, (x * x + y * y <= ro * ro / inj 2 * (1 + eps))%Qc /\
          (u = 0 \/ u = 1 \/ v = 0 \/ v = 1 -> ro * ro / inj 2 * (1 - eps) <= x * x + y * y)%Qc /\
          (forall m, m <= n' -> let (c, s) := turns (o_cos O b) (o_sin O b) (2 * m) in
             map (sp_value r [u; v; inj m]) [0; 1; 2] = [x; c * (Rt + y); s * (Rt + y)]%Qc) /\
          forall t, (0 <= t)%Qc -> (t <= inj n')%Qc ->
            exists ga de, nearly_unit eps n' ga de /\ map (sp_value r [u; v; t]) [0; 1; 2] = [x; ga * (Rt + y); de * (Rt + y)]%Qc).
Proof.
  intros Cn Hs Hl Hx Ht Hw Hw2 Hdeg Hpi rad n' b Nb Rb.
  assert (radians O (Some (full_or O ta)) false = rad) as Et.
  { unfold rad, full_or, radians. destruct ta; [|reflexivity]. destruct degree; [now specialize (Hdeg eq_refl)|reflexivity]. }
  fold rad in Hpi. rewrite <- Et in Hpi. change (radians O (Some (full_or O ta)) false) with (full_or O ta) in Hpi.
  set (s := square_patch true (ro * qc 1 2)%Qc w).
  pose proof (square_sound true limit (ro * qc 1 2)%Qc w ltac:(lia) Hw) as So. fold s in So.
  destruct (around eps O limit s Rt (full_or O ta) tn false Cn Hs Hl Hx Ht So ltac:(discriminate) eq_refl eq_refl) as (r & Er & Ro & Rd & Rn & Rv);
    [rewrite Et; exact Nb|rewrite Et; exact Rb|].
  rewrite Et in Rd, Rn, Rv. fold n' b in Rd, Rn, Rv. clearbody n'.
  exists r. split.
  { unfold torus. fold (full_or O ta). rewrite (plate_created limit w ro ltac:(lia)). cbn [option_map].
    destruct (qleb_spec (o_pi O) (qabs (full_or O ta))) as [_|B]; [|clear - B Hpi; exfalso; qlra]. exact Er. }
  split; [exact Ro|]. split.
  - intros u v t. change [u; v; t] with ([u; v] ++ [t]). rewrite Rd. unfold s. rewrite square_domain. split.
    + intros [(u' & v' & E & D1 & D2) T]. injection E as <- <-. exact (conj D1 (conj D2 T)).
    + intros (D1 & D2 & T). split; [|exact T]. exists u, v. exact (conj eq_refl (conj D1 D2)).
  - intros u v U0 U1 V0 V1. assert (sp_domain s [u; v]) as D by (apply square_domain; exists u, v; exact (conj eq_refl (conj (conj U0 U1) (conj V0 V1)))).
    exists (sp_value s [u; v] 0), (sp_value s [u; v] 1). destruct (square_inside eps true (ro * qc 1 2)%Qc w u v Hs Hw Hw2 U0 U1 V0 V1) as [I1 I2].
    assert ((1 + 1) * (ro * qc 1 2 * (ro * qc 1 2)) = ro * ro / inj 2)%Qc as E.
    { transitivity (ro * ro * ((1 + 1) * (qc 1 2 * qc 1 2)))%Qc; [ring|]. unfold Qcdiv.
      assert ((1 + 1) * (qc 1 2 * qc 1 2) = / inj 2)%Qc as -> by (apply Qc_is_canon; vm_compute; reflexivity). reflexivity. }
    rewrite E in I1, I2. split; [exact I1|]. split; [exact I2|]. split.
    + intros m Hm. specialize (Rn _ m D Hm). cbn zeta in Rn. destruct (turns (o_cos O b) (o_sin O b) (2 * m)). exact Rn.
    + intros t T0 T1. exact (Rv _ t D T0 T1).
Qed.

(** Less than half a turn: the section has no knots. *)
Lemma torus_raises O limit w Rt ro t sn tn degree : constants O -> 2 <= limit -> (0 < w)%Qc -> (qabs t < o_pi O)%Qc -> (1 < tn)%Z ->
  torus O limit w Rt ro None (Some t) None sn tn degree = None.
Proof.
  intros Cn Hl Hw Hp Hn. unfold torus. rewrite (plate_created limit w ro Hl). cbn [option_map].
  destruct (qleb_spec (o_pi O) (qabs t)) as [B|_]; [clear - B Hp; exfalso; qlra|].
  pose proof (shifted_sound limit 2 _ [0%Qc; Rt] (square_sound false limit (ro * qc 1 2)%Qc w Hl Hw) eq_refl) as So.
  change (Spl (sp_axes (square_patch false (ro * qc 1 2)%Qc w)) _ _) with (shifted [0%Qc; Rt] (square_patch false (ro * qc 1 2)%Qc w)).
  set (s := shifted _ _) in *. unfold turned_spline.
  destruct (revolved O s (Some [1; 0; 0]%Qc) (Some [0; 0; 0]%Qc) (Some t) (Some tn) false) as [i|] eqn:E; [|reflexivity].
  destruct (revolution_segs O limit 2 s _ _ _ _ _ i Cn So E) as (_ & _ & _ & _ & Hb & _). specialize (Hb eq_refl).
  pose proof (segs_at_least O (radians O (Some t) false) tn). exfalso. lia.
Qed.

(** * Cones *)
Lemma cone_shape eps O limit ro h inner angle degree : constants O -> small eps -> 3 <= limit -> tall h ->
  let rad := radians O (Some angle) degree in
  let R u := (inner_of inner + u * (ro - inner_of inner))%Qc in
  let n := segs O rad (Some 4%Z) in
  let a := (rad / (inj 2 * inj n))%Qc in
  nearly_circular eps O a -> rotates O None a ->
  exists r, cone O limit ro h inner true angle degree = Some r /\
    (forall u v t, sp_domain r [u; v; t] <-> ((0 <= u)%Qc /\ (u <= 1)%Qc) /\ ((0 <= v)%Qc /\ (v <= inj n)%Qc) /\ (0 <= t)%Qc /\ (t <= 1)%Qc) /\
    (forall u m t, (0 <= u)%Qc -> (u <= 1)%Qc -> m <= n -> (0 <= t)%Qc -> (t <= 1)%Qc ->
       let (c, s) := turns (o_cos O a) (o_sin O a) (2 * m) in
       map (sp_value r [u; inj m; t]) [0; 1; 2] = [(1 - t) * (c * R u); (1 - t) * (s * R u); t * h]%Qc) /\
    (forall u v t, (0 <= u)%Qc -> (u <= 1)%Qc -> (0 <= v)%Qc -> (v <= inj n)%Qc -> (0 <= t)%Qc -> (t <= 1)%Qc ->
       exists al be, nearly_unit eps n al be /\
         map (sp_value r [u; v; t]) [0; 1; 2] = [(1 - t) * (al * R u); (1 - t) * (be * R u); t * h]%Qc).
Proof.
  intros Cn Hs Hl Ht rad R n a Na Ra.
  destruct (disk_shape eps O limit ro inner angle 4 degree Cn Hs ltac:(lia) Na Ra) as (g & Eg & So & Sw & Sk & Sl & Sd & Sn & Sv).
  fold rad n a R in Sd, Sn, Sv. clearbody n. exists (cone_result g h). split.
  { unfold cone. rewrite Eg. apply cone_on_eq; auto. lia. }
  split; [|split].
  - intros u v t. change [u; v; t] with ([u; v] ++ [t]). rewrite cone_on_domain, Sd. split.
    + intros [(u' & v' & E & D1 & D2) T]. injection E as <- <-. exact (conj D1 (conj D2 T)).
    + intros (D1 & D2 & T). split; [|exact T]. exists u, v. exact (conj eq_refl (conj D1 D2)).
  - intros u m t U0 U1 Hm T0 T1. specialize (Sn u m U0 U1 Hm). cbn zeta in Sn.
    assert (sp_domain g [u; inj m]) as D. { apply Sd. exists u, (inj m). exact (conj eq_refl (conj (conj U0 U1) (conj (inj_nonneg m) (inj_le _ _ Hm)))). }
    destruct (turns (o_cos O a) (o_sin O a) (2 * m)) as [c s]. cbn [fst snd] in Sn.
    change [u; inj m; t] with ([u; inj m] ++ [t]). rewrite (cone_on_value limit g h _ t So D). destruct (two_inj _ _ _ Sn) as [-> ->]. reflexivity.
  - intros u v t U0 U1 V0 V1 T0 T1. destruct (Sv u v U0 U1 V0 V1) as (al & be & N & E).
    assert (sp_domain g [u; v]) as D by (apply Sd; exists u, v; exact (conj eq_refl (conj (conj U0 U1) (conj V0 V1)))).
    exists al, be. split; [exact N|]. change [u; v; t] with ([u; v] ++ [t]). rewrite (cone_on_value limit g h _ t So D). destruct (two_inj _ _ _ E) as [-> ->]. reflexivity.
Qed.
