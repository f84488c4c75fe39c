(** Cones over circles (cone(volumetric=False)). *)
From Coq Require Import List Arith ZArith Lia Bool QArith Qcanon.
From Verif Require Import Base BaseQc S_Spline P_Spline S_Value P_Value M_Core S_Core M_Files S_Files M_Bezier P_Bezier M_Elevate S_Knots S_Pieces
  W_Knots M_Create S_Create P_Revolve P_Shapes P_Create W_Create M_Primitives S_Primitives P_Round P_Primitives.
Import ListNotations.
Local Open Scope list_scope.
Local Open Scope nat_scope.

Lemma drop_sound limit dim kv0 q kv cps ws : length kv0 = 2 -> sound limit dim (Spl [KnotAxis 0 kv0; KnotAxis q kv] cps ws) -> sound limit dim (Spl [KnotAxis q kv] cps ws).
Proof.
  intros L ((degs & kvs & cps' & ws' & (C1 & C2 & C3 & C4 & C5) & (S1 & S2) & (H1 & H2 & H3 & H4)) & (W1 & W2 & W3) & F & P).
  cbn [sp_axes sp_cps sp_weights map ax_degree] in *. subst degs cps' ws'.
  destruct kvs as [kvs|]; [|inversion H2 as [|? ? (p & E) _]; discriminate].
  inversion H2 as [|? k0 ? kvs1 (p0 & E0) H2' Ea Eb]; subst. inversion H2' as [|? k1 ? kvs2 (p1 & E1) H2'' Ec Ed]; subst. inversion H2''; subst.
  injection E0 as _ <-. injection E1 as _ <-. inversion C2 as [|? ? ? ? _ C2']; subst. inversion S2 as [|? ? _ S2']; subst.
  split; [|split; [|split; [exact F|exact P]]].
  - exists [Z.of_nat q], (Some [kv]), cps, ws. split; [|split].
    + split; [discriminate|]. split; [exact C2'|]. split; [exact C3|]. split; [|exact C5]. rewrite C4. cbn [wanted]. rewrite L. lia.
    + split; [cbn in *; lia|exact S2'].
    + split; [reflexivity|]. split; [|now split]. constructor; [now exists q|constructor].
  - split; [now inversion W1|]. unfold sp_res in *. cbn [sp_axes sp_cps sp_weights map fold_right ax_n] in *. rewrite L in W2, W3.
    split; [lia|]. destruct ws; [lia|exact I].
Qed.

Lemma circle_shape eps O limit radius asked : constants O -> square O -> small eps -> 2 <= limit -> (1 < asked)%Z ->
  let rad := radians O (Some (inj 360)) true in
  let x0 := (radius * o_cos O 0)%Qc in
  let y0 := (radius * o_sin O 0)%Qc in
  exists n, enough_spans O rad (Some asked) n /\
  let a := (rad / (inj 2 * inj n))%Qc in
  (nearly_circular eps O a -> rotates O None a ->
   exists g, circle O limit radius asked = Some g /\ sound limit 2 g /\ has_kvs g = true /\ length (sp_axes g) = 1 /\
     (forall us, sp_domain g us <-> exists t, us = [t] /\ (0 <= t)%Qc /\ (t <= inj n)%Qc) /\
     (forall m, m <= n ->
        let c := fst (turns (o_cos O a) (o_sin O a) (2 * m)) in
        let s := snd (turns (o_cos O a) (o_sin O a) (2 * m)) in
        map (sp_value g [inj m]) [0; 1] = [c * x0 - s * y0; s * x0 + c * y0]%Qc) /\
     (forall t, (0 <= t)%Qc -> (t <= inj n)%Qc ->
        exists al be, nearly_unit eps n al be /\ map (sp_value g [t]) [0; 1] = [al * x0 - be * y0; be * x0 + al * y0]%Qc)).
Proof.
  intros Cn Sq Hs Hl Ha rad x0 y0. destruct (arc_spec O limit radius (inj 360) asked 0%Qc true Cn Hl Sq) as (n & En & Ea). fold rad in En, Ea.
  exists n. split; [exact En|]. intros a Nc Ro.
  assert ((1 <? asked)%Z = true) as Hz by now apply Z.ltb_lt. rewrite Hz, orb_true_r in Ea. cbn [orb] in Ea.
  set (p := [(radius * o_cos O (radians O (Some 0%Qc) true))%Qc; (radius * o_sin O (radians O (Some 0%Qc) true))%Qc]) in *.
  assert (radians O (Some 0%Qc) true = 0%Qc) as R0 by (unfold radians; field; discriminate).
  assert (p = [x0; y0]) as Ep by (unfold p, x0, y0; now rewrite R0).
  set (s := start_spline p true).
  pose proof (start_sound limit p true Hl eq_refl) as So. fold s in So.
  destruct En as (Hn & _). assert (has_kvs s = false -> n = 1) as Hb by discriminate.
  set (T := turn_result O s 2 None None a n).
  assert (arc_result O radius (inj 360) asked 0%Qc true n = Spl [turn_axis s n] (sp_cps T) (sp_weights T)) as Er by (unfold arc_result; now rewrite Hz, orb_true_r).
  rewrite Er in Ea. exists (Spl [turn_axis s n] (sp_cps T) (sp_weights T)). split; [exact Ea|].
  assert (sp_weights s <> None) as Hw by discriminate.
  assert (sound limit 2 T) as ST by (apply (round_sound eps O limit 2 s 2 None None a n So (le_n 2) eq_refl I I Hn Hb Nc Ro I Hw); [cbn; lia|discriminate]).
  assert (forall t d, sp_value (Spl [turn_axis s n] (sp_cps T) (sp_weights T)) [t] d = sp_value T ([0%Qc] ++ [t]) d) as V.
  { intros t d. rewrite <- Er. rewrite arc_value. rewrite Hz, orb_true_r. reflexivity. }
  assert (forall al be, turned None al be (fun e => embedded_in 2 (sp_value s [0%Qc]) e - origin None e)%Qc 0 = (al * x0 - be * y0)%Qc /\
                        turned None al be (fun e => embedded_in 2 (sp_value s [0%Qc]) e - origin None e)%Qc 1 = (be * x0 + al * y0)%Qc) as Et.
  { intros al be. unfold turned, axial, quarter, embedded_in, origin. change (0 <? 2) with true. change (1 <? 2) with true. cbn iota. unfold s. rewrite !start_value, Ep. cbn [nth]. split; ring. }
  split; [|split; [|split; [|split; [|split]]]].
  - apply (drop_sound limit 2 (bezier_knots 0) 2 (revolved_knots n)); [reflexivity|]. exact ST.
  - reflexivity.
  - reflexivity.
  - intros us. unfold sp_domain. cbn [sp_axes]. split.
    + intros H. inversion H as [|? t ? l Ht Hnil]; subst. inversion Hnil; subst. exists t. split; [reflexivity|]. now apply (turn_domain s n t Hn Hb).
    + intros (t & -> & Ht). constructor; [|constructor]. now apply (turn_domain s n t Hn Hb).
  - intros m Hm. cbn zeta. cbn [map]. rewrite !V. unfold T.
    rewrite !(round_knots eps O limit 2 s 2 None None a n So (le_n 2) eq_refl I I Hn Hb Nc Ro I Hw [0%Qc] m) by (apply start_domain || lia).
    change (as_vector None) with (@None (nat -> Qc)). match goal with |- context [turned None ?al ?be _ 0] => destruct (Et al be) as [-> ->] end.
    cbn [origin]. f_equal; [|f_equal]; ring.
  - intros t T0 T1. destruct (round_values eps O limit 2 s 2 None None a n So (le_n 2) eq_refl I I Hn Hb Hs Nc Ro I Hw [0%Qc] t (start_domain p true) T0 T1) as (al & be & N & E).
    exists al, be. split; [exact N|]. cbn [map]. rewrite !V. unfold T. rewrite !E by lia.
    change (as_vector None) with (@None (nat -> Qc)). destruct (Et al be) as [-> ->]. cbn [origin]. f_equal; [|f_equal]; ring.
Qed.

Lemma cone_surface : forall eps O limit radius h inner angle degree, constants O -> square O -> small eps -> 2 <= limit -> tall h ->
  let rad := radians O (Some (inj 360)) true in
  let x0 := (radius * o_cos O 0)%Qc in
  let y0 := (radius * o_sin O 0)%Qc in
  exists n, enough_spans O rad (Some 3%Z) n /\
  let a := (rad / (inj 2 * inj n))%Qc in
  (nearly_circular eps O a -> rotates O None a ->
   exists r, cone O limit radius h inner false angle degree = Some r /\
    (forall v t, sp_domain r [v; t] <-> between 0 v (inj n) /\ between 0 t 1) /\
    (forall m t, m <= n -> between 0 t 1 ->
       let (c, s) := turns (o_cos O a) (o_sin O a) (2 * m) in
       map (sp_value r [inj m; t]) [0; 1; 2] = [(1 - t) * (c * x0 - s * y0); (1 - t) * (s * x0 + c * y0); t * h]%Qc) /\
    (forall v t, between 0 v (inj n) -> between 0 t 1 ->
       exists al be, nearly_unit eps n al be /\
         map (sp_value r [v; t]) [0; 1; 2] = [(1 - t) * (al * x0 - be * y0); (1 - t) * (be * x0 + al * y0); t * h]%Qc)).
Proof.
  intros eps O limit radius h inner angle degree Cn Sq Hs Hl Ht rad x0 y0.
  destruct (circle_shape eps O limit radius 3%Z Cn Sq Hs Hl ltac:(lia)) as (n & En & H). exists n. split; [exact En|]. intros a Nc Ro.
  destruct (H Nc Ro) as (g & Eg & So & Sk & Sl & Sd & Sn & Sv). fold rad a x0 y0 in Sn, Sv. exists (cone_result g h). split.
  { unfold cone. rewrite Eg. apply cone_on_eq; auto. lia. }
  split; [|split].
  - intros v t. change [v; t] with ([v] ++ [t]). rewrite cone_on_domain, Sd. split.
    + intros [(v' & E & D) T]. injection E as <-. exact (conj D T).
    + intros (D & T). split; [|exact T]. now exists v.
  - intros m t Hm [T0 T1]. specialize (Sn m Hm). cbn zeta in Sn.
    assert (sp_domain g [inj m]) as D by (apply Sd; exists (inj m); exact (conj eq_refl (conj (inj_nonneg m) (inj_le _ _ Hm)))).
    destruct (turns (o_cos O a) (o_sin O a) (2 * m)) as [c s]. cbn [fst snd] in Sn.
    change [inj m; t] with ([inj m] ++ [t]). rewrite (cone_on_value limit g h _ t So D). destruct (two_inj _ _ _ Sn) as [-> ->]. reflexivity.
  - intros v t [V0 V1] [T0 T1]. destruct (Sv v V0 V1) as (al & be & N & E).
    assert (sp_domain g [v]) as D by (apply Sd; exists v; exact (conj eq_refl (conj V0 V1))).
    exists al, be. split; [exact N|]. change [v; t] with ([v] ++ [t]). rewrite (cone_on_value limit g h _ t So D). destruct (two_inj _ _ _ E) as [-> ->]. reflexivity.
Qed.
