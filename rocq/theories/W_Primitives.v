(** Witnesses and assembly of the theorems of T_Primitives. *)
From Coq Require Import List Arith ZArith Lia Bool QArith Qcanon.
From Verif Require Import Base BaseQc S_Spline P_Spline S_Value P_Value M_Core S_Core M_Files S_Files M_Bezier P_Bezier M_Elevate S_Knots S_Pieces
  W_Knots M_Create S_Create P_Revolve P_Shapes P_Create W_Create M_Primitives S_Primitives P_Round P_Primitives.
Import ListNotations.
Local Open Scope list_scope.
Local Open Scope nat_scope.

(** 22/7 for pi; 29/41 for the cosine and sine of pi/4, 12/13 and 5/13 for those of pi/8. *)
Definition prim_oracles : oracles :=
  let cos x := if qeqb x (qc 11 14) then qc 29 41 else if qeqb x (qc 11 28) then qc 12 13 else 1%Qc in
  let sin x := if qeqb x (qc 11 14) then qc 29 41 else if qeqb x (qc 11 28) then qc 5 13 else if qeqb x (qc 33 28) then qc 12 13 else 0%Qc in
  Oracles cos sin (qc 22 7) (fun v => nth 0 v 0%Qc) (fun axis a => matrix axis (cos a) (sin a)) (qc 1 1000).

Lemma prim_near a : a = qc 11 14 \/ a = qc 11 28 -> nearly_circular (qc 1 1681) prim_oracles a.
Proof. intros [-> | ->]; split; [|split| |split]; vm_compute; try reflexivity; intros H; discriminate H. Qed.

Lemma prim_rotates axis a : rotates prim_oracles axis a.
Proof. apply matrix_rotates. reflexivity. Qed.

Lemma prim_constants : constants prim_oracles.
Proof. split; reflexivity. Qed.

Lemma prim_small : small (qc 1 1681).
Proof. split; vm_compute; intros H; discriminate H. Qed.

Lemma C79_revolution_holds :
  forall eps O limit dim s axis center angle asked degree i, constants O -> small eps -> sound limit dim s -> sp_weights s <> None ->
  revolved O s axis center angle asked degree = Some i -> room limit (revolved_dim dim axis) s ->
  match axis with Some v => measures O v | None => True end ->
  let rad := radians O angle degree in
  let dim' := revolved_dim dim axis in
  let k := as_vector (direction O axis) in
  let from us e := (embedded_in dim (sp_value s us) e - origin center e)%Qc in
  exists n, enough_spans O rad asked n /\
  let a := (rad / (inj 2 * inj n))%Qc in
  (nearly_circular eps O a -> rotates O (direction O axis) a ->
   exists r, make limit s i = Some r /\ sound limit dim' r /\
     (forall us t, sp_domain r (us ++ [t]) <-> sp_domain s us /\ between 0 t (inj n)) /\
     (forall us m d, sp_domain s us -> m <= n -> d < dim' ->
        let (co, si) := turns (o_cos O a) (o_sin O a) (2 * m) in
        sp_value r (us ++ [inj m]) d = (origin center d + turned k co si (from us) d)%Qc) /\
     (forall us t, sp_domain s us -> between 0 t (inj n) ->
        exists al be, nearly_unit eps n al be /\
          forall d, d < dim' -> sp_value r (us ++ [t]) d = (origin center d + turned k al be (from us) d)%Qc)).
Proof.
  intros eps O limit dim s axis center angle asked degree i Cn Hs So Hw E R Me rad dim' k from. exists (segs O rad asked). split; [now apply segs_enough|].
  intros a Na Ra. destruct (turn_step eps O limit dim s axis center angle asked degree i Cn Hs So Hw E R Me Na Ra) as (r & Er & S1 & _ & _ & _ & S2 & S3 & S4).
  exists r. split; [exact Er|]. split; [exact S1|]. split; [exact S2|]. split.
  - intros us m d D Hm Hd. specialize (S3 us m d D Hm Hd). fold rad a in S3. destruct (turns (o_cos O a) (o_sin O a) (2 * m)). exact S3.
  - intros us t D [T0 T1]. exact (S4 us t D T0 T1).
Qed.

Lemma C79_example_holds :
  constants prim_oracles /\ small (qc 1 1681) /\ sound 10 2 nurbs_line /\ room 10 2 nurbs_line /\
  nearly_circular (qc 1 1681) prim_oracles (inj 2 * qc 22 7 / (inj 2 * inj 4))%Qc /\ rotates prim_oracles None (inj 2 * qc 22 7 / (inj 2 * inj 4))%Qc /\
  exists i r, revolved prim_oracles nurbs_line None None None (Some 4%Z) true = Some i /\ make 10 nurbs_line i = Some r /\
    map (sp_value r [0; inj 1]%Qc) [0; 1] = [0; qc 1682 1681]%Qc.
Proof.
  assert (inj 2 * qc 22 7 / (inj 2 * inj 4) = qc 11 14)%Qc as -> by qceq.
  split; [exact prim_constants|]. split; [exact prim_small|]. split; [exact nurbs_line_sound|].
  split; [split; [cbn; lia|intros (p & [H|[]]); discriminate]|]. split; [apply prim_near; now left|]. split; [apply prim_rotates|].
  do 2 eexists. split; [vm_compute; reflexivity|]. split; [vm_compute; reflexivity|]. qceq.
Qed.

Lemma C80_disk_holds :
  forall eps O limit ro inner angle asked degree, constants O -> small eps -> 2 <= limit ->
  let rad := radians O (Some angle) degree in
  let R u := (inner_of inner + u * (ro - inner_of inner))%Qc in
  exists n, enough_spans O rad (Some asked) n /\
  let a := (rad / (inj 2 * inj n))%Qc in
  (nearly_circular eps O a -> rotates O None a ->
   exists r, disk O limit ro inner angle asked degree = Some r /\ sound limit 2 r /\
     (forall us, sp_domain r us <-> exists u t, us = [u; t] /\ between 0 u 1 /\ between 0 t (inj n)) /\
     (forall u m, between 0 u 1 -> m <= n ->
        let (c, s) := turns (o_cos O a) (o_sin O a) (2 * m) in
        map (sp_value r [u; inj m]) [0; 1] = [c * R u; s * R u]%Qc) /\
     (forall u t, between 0 u 1 -> between 0 t (inj n) ->
        exists al be, nearly_unit eps n al be /\ map (sp_value r [u; t]) [0; 1] = [al * R u; be * R u]%Qc)).
Proof.
  intros eps O limit ro inner angle asked degree Cn Hs Hl rad R. exists (segs O rad (Some asked)). split; [now apply segs_enough|].
  intros a Na Ra. destruct (disk_shape eps O limit ro inner angle asked degree Cn Hs Hl Na Ra) as (r & Er & S1 & _ & _ & _ & S2 & S3 & S4).
  exists r. split; [exact Er|]. split; [exact S1|]. split; [exact S2|]. split.
  - intros u m [U0 U1] Hm. specialize (S3 u m U0 U1 Hm). cbn zeta in S3. fold rad a R in S3. destruct (turns (o_cos O a) (o_sin O a) (2 * m)). exact S3.
  - intros u t [U0 U1] [T0 T1]. exact (S4 u t U0 U1 T0 T1).
Qed.

Lemma C80_sphere_holds :
  forall eps O limit ro inner angle asked degree, constants O -> small eps -> 3 <= limit -> o_norm O ex = 1%Qc -> (o_tolerance O < 1)%Qc ->
  let half := o_pi O in
  let rad := radians O (Some angle) degree in
  let R u := (inner_of inner + u * (ro - inner_of inner))%Qc in
  exists n n', enough_spans O half (Some 4%Z) n /\ enough_spans O rad (Some asked) n' /\
  let a := (half / (inj 2 * inj n))%Qc in
  let b := (rad / (inj 2 * inj n'))%Qc in
  (nearly_circular eps O a -> rotates O None a -> nearly_circular eps O b -> rotates O (Some ex) b ->
   exists r, sphere O limit ro inner angle asked degree = Some r /\ sound limit 3 r /\
     (forall us, sp_domain r us <-> exists u v t, us = [u; v; t] /\ between 0 u 1 /\ between 0 v (inj n) /\ between 0 t (inj n')) /\
     (forall u m m', between 0 u 1 -> m <= n -> m' <= n' ->
        let (c, s) := turns (o_cos O a) (o_sin O a) (2 * m) in
        let (c', s') := turns (o_cos O b) (o_sin O b) (2 * m') in
        map (sp_value r [u; inj m; inj m']) [0; 1; 2] = [c * R u; c' * (s * R u); s' * (s * R u)]%Qc) /\
     (forall u v t, between 0 u 1 -> between 0 v (inj n) -> between 0 t (inj n') ->
        exists al be ga de, nearly_unit eps n al be /\ nearly_unit eps n' ga de /\
          map (sp_value r [u; v; t]) [0; 1; 2] = [al * R u; ga * (be * R u); de * (be * R u)]%Qc)).
Proof.
  intros eps O limit ro inner angle asked degree Cn Hs Hl Hx Ht half rad R.
  assert (radians O (Some (inj 180)) true = half) as Eh. { unfold radians. fold half. assert (inj 180 / inj 180 = 1)%Qc as -> by qceq. ring. }
  exists (segs O half (Some 4%Z)), (segs O rad (Some asked)). split; [now apply segs_enough|]. split; [now apply segs_enough|].
  intros a b Na Ra Nb Rb. pose proof (sphere_shape eps O limit ro inner angle asked degree Cn Hs Hl Hx Ht) as K. cbv zeta in K. rewrite Eh in K.
  destruct (K Na Ra Nb Rb) as (r & Er & S1 & S2 & S3 & S4).
  exists r. split; [exact Er|]. split; [exact S1|]. split; [exact S2|]. split.
  - intros u m m' [U0 U1] Hm Hm'. exact (S3 u m m' U0 U1 Hm Hm').
  - intros u v t [U0 U1] [V0 V1] [T0 T1]. exact (S4 u v t U0 U1 V0 V1 T0 T1).
Qed.

Lemma C80_torus_partial_holds :
  forall eps O limit w Rt ro inner ta sa sn tn degree, constants O -> small eps -> 3 <= limit -> o_norm O ex = 1%Qc -> (o_tolerance O < 1)%Qc ->
  sa <> None \/ inner <> None -> (degree = true -> ta = None <-> sa = None) ->
  let sect := radians O sa degree in
  let rad := radians O ta degree in
  let R u := (inner_of inner + u * (ro - inner_of inner))%Qc in
  exists n n', enough_spans O sect (Some sn) n /\ enough_spans O rad (Some tn) n' /\
  let a := (sect / (inj 2 * inj n))%Qc in
  let b := (rad / (inj 2 * inj n'))%Qc in
  (nearly_circular eps O a -> rotates O None a -> nearly_circular eps O b -> rotates O (Some ex) b ->
   exists r, torus O limit w Rt ro inner ta sa sn tn degree = Some r /\ sound limit 3 r /\
     (forall us, sp_domain r us <-> exists u v t, us = [u; v; t] /\ between 0 u 1 /\ between 0 v (inj n) /\ between 0 t (inj n')) /\
     (forall u m m', between 0 u 1 -> m <= n -> m' <= n' ->
        let (c, s) := turns (o_cos O a) (o_sin O a) (2 * m) in
        let (c', s') := turns (o_cos O b) (o_sin O b) (2 * m') in
        map (sp_value r [u; inj m; inj m']) [0; 1; 2] = [c * R u; c' * (Rt + s * R u); s' * (Rt + s * R u)]%Qc) /\
     (forall u v t, between 0 u 1 -> between 0 v (inj n) -> between 0 t (inj n') ->
        exists al be ga de, nearly_unit eps n al be /\ nearly_unit eps n' ga de /\
          map (sp_value r [u; v; t]) [0; 1; 2] = [al * R u; ga * (Rt + be * R u); de * (Rt + be * R u)]%Qc)).
Proof.
  intros eps O limit w Rt ro inner ta sa sn tn degree Cn Hs Hl Hx Ht Hsec Hdeg sect rad R.
  exists (segs O sect (Some sn)), (segs O rad (Some tn)). split; [now apply segs_enough|]. split; [now apply segs_enough|].
  intros a b Na Ra Nb Rb. destruct (torus_disk eps O limit w Rt ro inner ta sa sn tn degree Cn Hs Hl Hx Ht Hsec Hdeg Na Ra Nb Rb) as (r & Er & S1 & S2 & S3 & S4).
  exists r. split; [exact Er|]. split; [exact S1|]. split; [exact S2|]. split.
  - intros u m m' [U0 U1] Hm Hm'. exact (S3 u m m' U0 U1 Hm Hm').
  - intros u v t [U0 U1] [V0 V1] [T0 T1]. exact (S4 u v t U0 U1 V0 V1 T0 T1).
Qed.

Lemma C80_full_torus_partial_holds :
  forall eps O limit w Rt ro ta sn tn degree, constants O -> small eps -> 3 <= limit -> o_norm O ex = 1%Qc -> (o_tolerance O < 1)%Qc ->
  (0 < w)%Qc -> (qabs ((1 + 1) * (w * w) - 1) <= eps)%Qc ->
  (degree = true -> ta = None) -> (o_pi O <= qabs (radians O ta degree))%Qc ->
  let rad := radians O ta degree in
  exists n', enough_spans O rad (Some tn) n' /\
  let b := (rad / (inj 2 * inj n'))%Qc in
  (nearly_circular eps O b -> rotates O (Some ex) b ->
   exists r, torus O limit w Rt ro None ta None sn tn degree = Some r /\ sound limit 3 r /\
     (forall u v t, sp_domain r [u; v; t] <-> between 0 u 1 /\ between 0 v 1 /\ between 0 t (inj n')) /\
     (forall u v, between 0 u 1 -> between 0 v 1 ->
        exists x y, (x * x + y * y <= ro * ro / inj 2 * (1 + eps))%Qc /\
          (u = 0 \/ u = 1 \/ v = 0 \/ v = 1 -> ro * ro / inj 2 * (1 - eps) <= x * x + y * y)%Qc /\
          (forall m, m <= n' -> let (c, s) := turns (o_cos O b) (o_sin O b) (2 * m) in
             map (sp_value r [u; v; inj m]) [0; 1; 2] = [x; c * (Rt + y); s * (Rt + y)]%Qc) /\
          forall t, between 0 t (inj n') ->
            exists ga de, nearly_unit eps n' ga de /\ map (sp_value r [u; v; t]) [0; 1; 2] = [x; ga * (Rt + y); de * (Rt + y)]%Qc)).
Proof.
  intros eps O limit w Rt ro ta sn tn degree Cn Hs Hl Hx Ht Hw Hw2 Hdeg Hpi rad. exists (segs O rad (Some tn)). split; [now apply segs_enough|].
  intros b Nb Rb. destruct (torus_plate eps O limit w Rt ro ta sn tn degree Cn Hs Hl Hx Ht Hw Hw2 Hdeg Hpi Nb Rb) as (r & Er & S1 & S2 & S3).
  exists r. split; [exact Er|]. split; [exact S1|]. split; [exact S2|].
  intros u v [U0 U1] [V0 V1]. destruct (S3 u v U0 U1 V0 V1) as (x & y & A & B & C & D). exists x, y. split; [exact A|]. split; [exact B|]. split; [exact C|].
  intros t [T0 T1]. exact (D t T0 T1).
Qed.

Lemma C80_example_holds :
  constants prim_oracles /\ small (qc 1 1681) /\ o_norm prim_oracles ex = 1%Qc /\ (o_tolerance prim_oracles < 1)%Qc /\
  (let a := (radians prim_oracles None true / (inj 2 * inj 4))%Qc in nearly_circular (qc 1 1681) prim_oracles a /\ rotates prim_oracles None a /\ rotates prim_oracles (Some ex) a) /\
  (let a := (o_pi prim_oracles / (inj 2 * inj 4))%Qc in nearly_circular (qc 1 1681) prim_oracles a) /\
  (qabs ((1 + 1) * (qc 29 41 * qc 29 41) - 1) <= qc 1 1681)%Qc /\
  exists r, torus prim_oracles 10 (qc 29 41) (inj 3) 1 (Some (qc 1 2)) None None 4 4 true = Some r /\
    map (sp_value r [0; 0; 0]%Qc) [0; 1; 2] = [qc 1 2; inj 3; 0]%Qc /\
    map (sp_value r [1; inj 1; 0]%Qc) [0; 1; 2] = [0; qc 6725 1681; 0]%Qc.
Proof.
  split; [exact prim_constants|]. split; [exact prim_small|]. split; [reflexivity|]. split; [reflexivity|].
  cbv zeta. assert (radians prim_oracles None true / (inj 2 * inj 4) = qc 11 14)%Qc as -> by qceq. assert (o_pi prim_oracles / (inj 2 * inj 4) = qc 11 28)%Qc as -> by qceq.
  split; [split; [apply prim_near; now left|split; apply prim_rotates]|]. split; [apply prim_near; now right|].
  split; [vm_compute; intros H; discriminate H|].
  eexists. split; [vm_compute; reflexivity|]. split; qceq.
Qed.

Lemma C80_degree_refuted_holds :
  (forall O limit w Rt ro inner t s sn tn,
     torus O limit w Rt ro inner (Some t) None sn tn true = torus O limit w Rt ro inner (Some t) None sn tn false /\
     torus O limit w Rt ro inner None (Some s) sn tn true = torus O limit w Rt ro inner None (Some s) sn tn false) /\
  exists O t r r', constants O /\
    torus O 10 (qc 29 41) (inj 3) 1 (Some (qc 1 2)) (Some t) None 4 1 true = Some r /\
    torus O 10 (qc 29 41) (inj 3) 1 (Some (qc 1 2)) (Some (radians O (Some t) true)) None 4 1 false = Some r' /\
    length (sp_cps r) <> length (sp_cps r').
Proof.
  split; [intros; split; reflexivity|]. exists prim_oracles, (inj 4). do 2 eexists. split; [exact prim_constants|].
  split; [vm_compute; reflexivity|]. split; [vm_compute; reflexivity|]. cbn. discriminate.
Qed.

Lemma C80_part_refuted_holds :
  forall O limit w Rt ro t sn tn degree, constants O -> 2 <= limit -> (0 < w)%Qc -> (qabs t < o_pi O)%Qc -> (1 < tn)%Z ->
  torus O limit w Rt ro None (Some t) None sn tn degree = None.
Proof. exact torus_raises. Qed.

Lemma C81_surface_circle_holds :
  forall eps limit w R, small eps -> 2 <= limit -> (0 < w)%Qc -> (qabs ((1 + 1) * (w * w) - 1) <= eps)%Qc ->
  exists r, surface_circle limit w R = Some r /\ sound limit 2 r /\
    (forall u v, sp_domain r [u; v] <-> between 0 u 1 /\ between 0 v 1) /\
    forall u v, between 0 u 1 -> between 0 v 1 ->
      let x := sp_value r [u; v] 0 in
      let y := sp_value r [u; v] 1 in
      (x * x + y * y <= (1 + eps) * (1 + eps) * (R * R))%Qc /\
      (u = 0 \/ u = 1 \/ v = 0 \/ v = 1 -> (1 - eps) * (1 - eps) * (R * R) <= x * x + y * y)%Qc.
Proof.
  intros eps limit w R Hs Hl Hw Hw2. exists (square_patch false (R * w)%Qc w). split; [now apply circle_created|]. split; [now apply square_sound|]. split.
  - intros u v. rewrite square_domain. split.
    + intros (u' & v' & E & D1 & D2). injection E as <- <-. exact (conj D1 D2).
    + intros [D1 D2]. exists u, v. exact (conj eq_refl (conj D1 D2)).
  - intros u v [U0 U1] [V0 V1] x y. destruct (square_inside eps false (R * w)%Qc w u v Hs Hw Hw2 U0 U1 V0 V1) as [I1 I2]. fold x y in I1, I2. clearbody x y.
    destruct Hs as [E0 E1]. destruct (qabs_bounds _ _ Hw2) as [B1 B2].
    assert (0 <= R * R)%Qc as R0 by (clear; qnra).
    assert (eps < 1)%Qc as E2 by (eapply Qcle_lt_trans; [exact E1|reflexivity]).
    assert ((1 + 1) * (R * w * (R * w)) = (1 + 1) * (w * w) * (R * R))%Qc as E by ring. rewrite E in I1, I2. set (q := ((1 + 1) * (w * w))%Qc) in *. set (p := (R * R)%Qc) in *. clearbody p q. clear E E1.
    split.
    + eapply Qcle_trans; [exact I1|]. clear I1 I2. assert (0 <= p * (1 + eps))%Qc as P by (apply Qc_mul_nonneg; [exact R0|clear - E0; qlra]).
      clear - P B2. qnra.
    + intros H. eapply Qcle_trans; [|exact (I2 H)]. clear I1 I2. assert (0 <= p * (1 - eps))%Qc as P by (apply Qc_mul_nonneg; [exact R0|clear - E2; qlra]).
      clear - P B1. qnra.
Qed.

Lemma C81_example_holds :
  small (qc 1 1681) /\ (qabs ((1 + 1) * (qc 29 41 * qc 29 41) - 1) <= qc 1 1681)%Qc /\
  exists r, surface_circle 10 (qc 29 41) (inj 41) = Some r /\
    map (sp_value r [0; 0]%Qc) [0; 1] = [- inj 29; - inj 29]%Qc /\ map (sp_value r [1; qc 1 2]%Qc) [0; 1] = [qc 2871 70; 0]%Qc /\
    map (sp_value r [qc 1 2; qc 1 2]%Qc) [0; 1] = [0; 0]%Qc.
Proof.
  split; [exact prim_small|]. split; [vm_compute; intros H; discriminate H|].
  eexists. split; [vm_compute; reflexivity|]. split; [qceq|]. split; qceq.
Qed.

Lemma C81_plate_refuted_holds :
  forall eps limit w R, small eps -> 2 <= limit -> (0 < w)%Qc -> (qabs ((1 + 1) * (w * w) - 1) <= eps)%Qc ->
  exists r, plate limit w R = Some r /\ sound limit 2 r /\
    forall u v, between 0 u 1 -> between 0 v 1 ->
      let x := sp_value r [u; v] 0 in
      let y := sp_value r [u; v] 1 in
      (x * x + y * y <= R * R / inj 2 * (1 + eps))%Qc /\
      (u = 0 \/ u = 1 \/ v = 0 \/ v = 1 -> R * R / inj 2 * (1 - eps) <= x * x + y * y)%Qc.
Proof.
  intros eps limit w R Hs Hl Hw Hw2. exists (square_patch false (R * qc 1 2)%Qc w). split; [now apply plate_created|]. split; [now apply square_sound|].
  intros u v [U0 U1] [V0 V1] x y. destruct (square_inside eps false (R * qc 1 2)%Qc w u v Hs Hw Hw2 U0 U1 V0 V1) as [I1 I2]. fold x y in I1, I2. clearbody x y.
  assert ((1 + 1) * (R * qc 1 2 * (R * qc 1 2)) = R * R / inj 2)%Qc as E.
  { transitivity (R * R * ((1 + 1) * (qc 1 2 * qc 1 2)))%Qc; [ring|]. unfold Qcdiv. assert ((1 + 1) * (qc 1 2 * qc 1 2) = / inj 2)%Qc as -> by qceq. reflexivity. }
  rewrite E in I1, I2. exact (conj I1 I2).
Qed.

Lemma C82_cone_partial_holds :
  forall eps O limit ro h inner angle degree, constants O -> small eps -> 3 <= limit -> tall h ->
  let rad := radians O (Some angle) degree in
  let R u := (inner_of inner + u * (ro - inner_of inner))%Qc in
  exists n, enough_spans O rad (Some 4%Z) n /\
  let a := (rad / (inj 2 * inj n))%Qc in
  (nearly_circular eps O a -> rotates O None a ->
   exists r, cone O limit ro h inner true angle degree = Some r /\
    (forall u v t, sp_domain r [u; v; t] <-> between 0 u 1 /\ between 0 v (inj n) /\ between 0 t 1) /\
    (forall u m t, between 0 u 1 -> m <= n -> between 0 t 1 ->
       let (c, s) := turns (o_cos O a) (o_sin O a) (2 * m) in
       map (sp_value r [u; inj m; t]) [0; 1; 2] = [(1 - t) * (c * R u); (1 - t) * (s * R u); t * h]%Qc) /\
    (forall u v t, between 0 u 1 -> between 0 v (inj n) -> between 0 t 1 ->
       exists al be, nearly_unit eps n al be /\
         map (sp_value r [u; v; t]) [0; 1; 2] = [(1 - t) * (al * R u); (1 - t) * (be * R u); t * h]%Qc)).
Proof.
  intros eps O limit ro h inner angle degree Cn Hs Hl Ht rad R. exists (segs O rad (Some 4%Z)). split; [now apply segs_enough|].
  intros a Na Ra. destruct (cone_shape eps O limit ro h inner angle degree Cn Hs Hl Ht Na Ra) as (r & Er & S2 & S3 & S4).
  exists r. split; [exact Er|]. split; [exact S2|]. split.
  - intros u m t [U0 U1] Hm [T0 T1]. exact (S3 u m t U0 U1 Hm T0 T1).
  - intros u v t [U0 U1] [V0 V1] [T0 T1]. exact (S4 u v t U0 U1 V0 V1 T0 T1).
Qed.

Lemma C82_example_holds :
  tall (inj 2) /\
  exists r, cone prim_oracles 10 1 (inj 2) None true (inj 360) true = Some r /\
    map (sp_value r [1; 0; 0]%Qc) [0; 1; 2] = [1; 0; 0]%Qc /\ map (sp_value r [1; 0; qc 1 2]%Qc) [0; 1; 2] = [qc 1 2; 0; 1]%Qc.
Proof. split; [reflexivity|]. eexists. split; [vm_compute; reflexivity|]. split; qceq. Qed.

Lemma C82_flat_refuted_holds :
  exists O h r, constants O /\ (0 < h)%Qc /\ cone O 10 1 h None true (inj 360) true = Some r /\ Forall (fun p => p = [0%Qc; 0%Qc; h]) (sp_cps r).
Proof.
  exists prim_oracles, (qc 1 1000000000). eexists. split; [exact prim_constants|]. split; [reflexivity|]. split; [vm_compute; reflexivity|].
  repeat constructor.
Qed.

Lemma C82_pyramid_holds :
  forall limit w l h, 3 <= limit ->
  exists r, pyramid limit w l h = Some r /\ sp_axes r = repeat (BezierAxis 1) 3 /\ Forall (fun p => length p = 3) (sp_cps r) /\
    forall u v t, between 0 u 1 -> between 0 v 1 -> between 0 t 1 ->
      map (sp_value r [u; v; t]) [0; 1; 2] = [(1 - t) * (u * w) + t * (w / inj 2); (1 - t) * (v * l) + t * (l / inj 2); t * h]%Qc.
Proof.
  intros limit w l h Hl. destruct (pyramid_shape limit w l h Hl) as (r & E & A & F & V). exists r. split; [exact E|]. split; [exact A|]. split; [exact F|].
  intros u v t [U0 U1] [V0 V1] [T0 T1]. exact (V u v t U0 U1 V0 V1 T0 T1).
Qed.

Lemma C82_pyramid_example_holds :
  exists r, pyramid 10 (inj 2) (inj 4) (inj 3) = Some r /\
    map (sp_value r [0; 1; 1]%Qc) [0; 1; 2] = [1; inj 2; inj 3]%Qc /\ map (sp_value r [1; 0; qc 1 2]%Qc) [0; 1; 2] = [qc 3 2; 1; qc 3 2]%Qc.
Proof. eexists. split; [vm_compute; reflexivity|]. split; qceq. Qed.

(** 22/7 for pi; 1/2 and 13/15 for the cosine and sine of pi/3. *)
Definition cone_oracles : oracles :=
  let cos x := if qeqb x (qc 22 21) then qc 1 2 else 1%Qc in
  let sin x := if qeqb x (qc 22 21) then qc 13 15 else if qeqb x (qc 11 21) then qc 1 2 else 0%Qc in
  Oracles cos sin (qc 22 7) (fun v => nth 0 v 0%Qc) (fun axis a => matrix axis (cos a) (sin a)) (qc 1 1000).

Lemma C82_surface_example_holds :
  constants cone_oracles /\ square cone_oracles /\ small (qc 1 900) /\ tall (inj 2) /\
  (let a := (radians cone_oracles (Some (inj 360)) true / (inj 2 * inj 3))%Qc in nearly_circular (qc 1 900) cone_oracles a /\ rotates cone_oracles None a) /\
  exists r, cone cone_oracles 10 1 (inj 2) None false (inj 360) true = Some r /\
    map (sp_value r [0; 0]%Qc) [0; 1; 2] = [1; 0; 0]%Qc /\ map (sp_value r [0; qc 1 2]%Qc) [0; 1; 2] = [qc 1 2; 0; 1]%Qc /\
    map (sp_value r [1; 0]%Qc) [0; 1; 2] = [- qc 451 900; qc 13 15; 0]%Qc.
Proof.
  split; [split; reflexivity|]. split; [intros [axis|] a; reflexivity|]. split; [split; vm_compute; intros H; discriminate H|]. split; [reflexivity|].
  cbv zeta. assert (radians cone_oracles (Some (inj 360)) true / (inj 2 * inj 3) = qc 22 21)%Qc as -> by qceq.
  split; [split; [split; [|split]; vm_compute; try reflexivity; intros H; discriminate H|apply matrix_rotates; reflexivity]|].
  eexists. split; [vm_compute; reflexivity|]. split; [qceq|]. split; qceq.
Qed.
