(** Proofs about revolved splines with computed sines and cosines. *)
From Coq Require Import List Arith ZArith Lia Bool QArith Qcanon Qround Sorted.
From Verif Require Import Base BaseRadix BaseQc S_Grid P_Grid S_Spline P_Spline S_Value P_Value M_Core S_Core P_Core
  M_Files S_Files P_Files M_Bezier P_Bezier M_Elevate P_Elevate S_Knots S_Pieces P_Pieces M_Create S_Create P_Create P_Revolve S_Primitives.
From Verif Require P_Shapes.
Import ListNotations.
Local Open Scope list_scope.
Local Open Scope nat_scope.

(** The lemmas of P_Revolve for any rotation matrices and weights. *)
Section Values.
Variables (O : oracles) (limit dim : nat) (s : spline) (dim' : nat) (k center : option (list Qc)) (a : Qc) (n : nat).
Hypothesis (So : sound limit dim s) (Hd : dim <= dim') (Hk : dim' = space (as_vector k))
  (Hk3 : match k with Some l => length l = 3 | None => True end)
  (Hc : match center with Some c => length c = dim' | None => True end)
  (Hn : 1 <= n) (Hb : has_kvs s = false -> n = 1).
Let rot := rotate_row (o_rotation O k a).
Let weight := o_sin O (o_pi O / inj 2 - a)%Qc.
Let push := push_row k (1 / weight)%Qc.

Hypothesis (Wp : (0 < weight)%Qc) (Ro : rotates O k a) (Un : unit_axis (as_vector k)).
Let kv := as_vector k.
Let C m := fst (turns (o_cos O a) (o_sin O a) m).
Let S' m := snd (turns (o_cos O a) (o_sin O a) m).

Lemma g_turned_0 x d : turned kv (C 0) (S' 0) x d = x d.
Proof.
  unfold C, S', turned. cbn [turns fst snd]. ring.
Qed.
Lemma g_rot_nth p d : length p = dim' -> d < dim' ->
  nth d (rot p) 0%Qc = turned kv (o_cos O a) (o_sin O a) (fun j => nth j p 0%Qc) d.
Proof.
  intros Lp Ld. destruct Ro as [L R]. unfold rot, rotate_row.
  assert (dim' = match k with None => 2 | Some _ => 3 end) as E by (rewrite Hk; now destruct k).
  rewrite (nth_indep _ _ (dot [] p)) by (rewrite map_length, L; lia).
  rewrite (map_nth (fun r => dot r p)). apply R; lia.
Qed.
Lemma g_iter_nth m p d : length p = dim' -> d < dim' ->
  nth d (Nat.iter m rot p) 0%Qc = turned kv (C m) (S' m) (fun j => nth j p 0%Qc) d.
Proof.
  intros Lp. revert d; induction m as [|m IH]; intros d Ld.
  - now rewrite g_turned_0.
  - change (Nat.iter (S m) rot p) with (rot (Nat.iter m rot p)).
    rewrite g_rot_nth; [|apply (iter_length O dim' k a Hk Hk3 (proj1 Ro)); exact Lp|exact Ld].
    rewrite (turned_ext kv _ _ _ (turned kv (C m) (S' m) (fun j => nth j p 0%Qc)) d).
    + rewrite turned_turned; [|exact Un|unfold kv; rewrite <- Hk; exact Ld].
      unfold C, S' in *. cbn [turns fst snd]. f_equal; ring.
    + intros j Hj. apply IH. unfold kv in Hj. now rewrite <- Hk in Hj.
    + unfold kv. now rewrite <- Hk.
Qed.
Lemma gen_axial_ext q x y d : (forall j, j < space q -> x j = y j) -> axial q x d = axial q y d.
Proof. intros H. destruct q as [q|]; [|reflexivity]. cbn [axial space] in *. now rewrite !H by lia. Qed.
Lemma g_push_nth p x al be d : length p = dim' -> d < dim' ->
  (forall j, j < dim' -> nth j p 0%Qc = turned kv al be x j) ->
  nth d (push p) 0%Qc = turned kv (1 / weight * al)%Qc (1 / weight * be)%Qc x d.
Proof.
  intros Lp Ld H.
  assert (forall e, axial kv (fun j => nth j p 0%Qc) e = axial kv x e) as Hax.
  { intros e. rewrite (gen_axial_ext kv _ (turned kv al be x)).
    - now apply axial_turned.
    - intros j Hj. apply H. rewrite Hk. exact Hj. }
  unfold push, push_row. unfold kv, as_vector in *. destruct k as [l|]; cbn [option_map] in *.
  - assert (forall e, nth e (row_scale (dot p l) l) 0%Qc = axial (Some (fun d => nth d l 0%Qc)) (fun j => nth j p 0%Qc) e) as E.
    { intros e. rewrite row_scale_nth. cbn [axial]. cbn in Hk.
      destruct p as [|p0 [|p1 [|p2 [|? ?]]]]; cbn in Lp; try lia.
      destruct l as [|l0 [|l1 [|l2 [|? ?]]]]; cbn in Hk3; try lia. cbn [dot combine map fst snd qsum nth]. unfold dot.
      cbn [combine map fst snd qsum]. f_equal. ring. }
    rewrite row_add_nth by (rewrite !row_scale_length, row_sub_length, row_scale_length, Hk3, Lp; cbn in Hk; lia).
    rewrite row_scale_nth, row_sub_nth by (rewrite row_scale_length, Hk3, Lp; exact Hk).
    rewrite E, Hax, H by exact Ld. unfold turned. ring.
  - rewrite row_scale_nth, H by exact Ld. unfold turned. cbn [axial]. ring.
Qed.

Definition gblow (j : nat) : Qc := if Nat.odd j then (1 / weight)%Qc else 1%Qc.
Definition gspot (d : nat) (x : nat -> Qc) (e : nat) : Qc := (embedded_in dim x e - origin center e)%Qc.
Lemma g_turn_nth j A p d : nth_error (turn_list O dim' k center a n) j = Some A -> In p (sp_cps s) -> d < dim' ->
  nth d (A p) 0%Qc =
  (origin center d + turned kv (gblow j * C j) (gblow j * S' j) (gspot d (fun e => nth e p 0%Qc)) d)%Qc.
Proof.
  intros EA Hp Ld. apply (turn_list_map O dim s dim' k center a n Hd Hk Hn Hb (proj1 Ro)) in EA as [_ EA]. rewrite EA. clear EA.
  pose proof So as (_ & _ & F & _). rewrite Forall_forall in F. specialize (F p Hp).
  pose proof (pre_length O dim s dim' k center a n Hd Hk Hc Hn Hb (proj1 Ro) p F) as Lpre.
  assert (forall e, e < dim' -> nth e (pre dim' center p) 0%Qc = gspot d (fun e => nth e p 0%Qc) e) as Epre.
  { intros e He. unfold pre, gspot, origin, embedded_in.
    assert ((if e <? dim then nth e p 0%Qc else 0%Qc) = nth e p 0%Qc) as ->.
    { destruct (Nat.ltb_spec e dim); [easy|]. rewrite nth_overflow; [easy|lia]. }
    destruct center as [c|].
    - rewrite row_sub_nth, nth_zero_padded; [reflexivity|]. rewrite zero_padded_length; lia.
    - rewrite nth_zero_padded. ring. }
  assert (forall q, length q = dim' -> nth d (post center q) 0%Qc = (origin center d + nth d q 0)%Qc) as Epost.
  { intros q Lq. unfold post, origin. destruct center as [c|]; [rewrite row_add_nth by lia|]; ring. }
  pose proof ((iter_length O dim' k a Hk Hk3 (proj1 Ro)) j _ Lpre) as Lit.
  assert (forall e, e < dim' -> nth e (Nat.iter j rot (pre dim' center p)) 0%Qc =
     turned kv (C j) (S' j) (gspot d (fun e => nth e p 0%Qc)) e) as Eit.
  { intros e He. rewrite g_iter_nth by auto. apply turned_ext; [|unfold kv; now rewrite <- Hk].
    intros i Hi. apply Epre. rewrite Hk. exact Hi. }
  unfold gblow. destruct (Nat.odd j).
  - rewrite Epost by (apply (push_length O dim s dim' k a n Hd Hk Hk3 Hn Hb (proj1 Ro)); exact Lit). f_equal. now apply g_push_nth.
  - rewrite Epost by auto. f_equal. rewrite Eit by auto. unfold turned. ring.
Qed.
Lemma g_turn_affine j d : affine dim (fun x => (origin center d + turned kv (gblow j * C j) (gblow j * S' j) (gspot d x) d)%Qc).
Proof.
  apply affine_add; [apply affine_const|]. apply (affine_turned dim kv _ _ (fun x => gspot d x)).
  intros e. apply (affine_ext _ (fun x => embedded_in dim x e + (- origin center e))%Qc); [intros; unfold gspot; ring|]. apply affine_coord.
Qed.

Lemma g_turn_value us c t d : sp_domain s us -> c < n -> (0 <= t)%Qc -> (t <= 1)%Qc -> d < dim' ->
  sp_value (turn_result O s dim' k center a n) (us ++ [inj c + t]%Qc) d =
  let X := gspot d (sp_value s us) in
  let q := axial kv X d in
  match sp_weights s with
  | None => origin center d + q +
      (((1 - t) * (1 - t) * C (2 * c)%nat + (1 + 1) * t * (1 - t) * (1 / weight) * C (2 * c + 1)%nat + t * t * C (2 * c + 2)%nat) * (X d - q) +
       ((1 - t) * (1 - t) * S' (2 * c)%nat + (1 + 1) * t * (1 - t) * (1 / weight) * S' (2 * c + 1)%nat + t * t * S' (2 * c + 2)%nat) * quarter kv X d)
  | Some _ => origin center d + q +
      (((1 - t) * (1 - t) * C (2 * c)%nat + (1 + 1) * t * (1 - t) * C (2 * c + 1)%nat + t * t * C (2 * c + 2)%nat) * (X d - q) +
       ((1 - t) * (1 - t) * S' (2 * c)%nat + (1 + 1) * t * (1 - t) * S' (2 * c + 1)%nat + t * t * S' (2 * c + 2)%nat) * quarter kv X d) /
      ((1 - t) * (1 - t) + (1 + 1) * t * (1 - t) * weight + t * t)
  end%Qc.
Proof.
  intros D Hcn T0 T1 Ld. pose proof So as (_ & W & _ & Pos). unfold turn_result. fold weight.
  rewrite (swept_value s _ _ _ us _ d dim (fun j x => (origin center d + turned kv (gblow j * C j) (gblow j * S' j) (gspot d x) d)%Qc)); auto.
  - rewrite turn_n by auto. cbn zeta. set (X := gspot d (sp_value s us)).
    assert (forall i, Nat.odd (2 * c + i) = Nat.odd i) as Odd.
    { intros i. rewrite Nat.odd_add, Nat.odd_mul. cbn [Nat.odd Nat.even negb andb]. now destruct (Nat.odd i). }
    assert (Nat.odd (2 * c) = false) as Odd0 by (rewrite <- (Nat.add_0_r (2 * c)), Odd; reflexivity).
    assert (weight <> 0%Qc) as Wn by (intros E; rewrite E in Wp; discriminate).
    destruct (sp_weights s).
    + rewrite !(qsum_ext (fun j => ax_fun (turn_axis s n) (inj c + t)%Qc j * nth j (turn_weights weight n) 0 *
         (origin center d + turned kv (gblow j * C j) (gblow j * S' j) X d))%Qc
        (fun j => ax_fun (turn_axis s n) (inj c + t)%Qc j * (nth j (turn_weights weight n) 0 *
         (origin center d + turned kv (gblow j * C j) (gblow j * S' j) X d)))%Qc) by (intros; ring).
      rewrite !turn_sum by auto. rewrite !turn_weights_nth by lia. unfold gblow. rewrite !Odd, Odd0.
      replace (Nat.odd 1) with true by reflexivity. replace (Nat.odd 2) with false by reflexivity.
      assert ((1 - t) * (1 - t) * 1 + (1 + 1) * t * (1 - t) * weight + t * t * 1 <> 0)%Qc as Dn.
      { assert (0 < (1 - t) * (1 - t) * 1 + (1 + 1) * t * (1 - t) * weight + t * t * 1)%Qc as P.
        { assert (0 <= (1 + 1) * t * (1 - t) * weight)%Qc.
          { apply Qc_mul_nonneg; [|qlra]. apply Qc_mul_nonneg; [|qlra]. qlra. }
          destruct (Qc_eq_dec t 0) as [-> |Nt]; [qlra|].
          assert (0 < t * t)%Qc by (apply Qc_mul_pos; apply Qcle_lt_or_eq in T0 as [|]; congruence).
          assert (0 <= (1 - t) * (1 - t))%Qc by (apply Qc_mul_nonneg; qlra). qlra. }
        intros E. rewrite E in P. discriminate. }
      unfold turned.
      assert ((1 - t) * (1 - t) * 1 + (1 + 1) * t * (1 - t) * weight + t * t * 1 =
              (1 - t) * (1 - t) + (1 + 1) * t * (1 - t) * weight + t * t)%Qc as ED by ring.
      rewrite ED in *. set (Den := ((1 - t) * (1 - t) + (1 + 1) * t * (1 - t) * weight + t * t)%Qc) in *.
      match goal with |- (_ = ?o + ?q + ?m / _)%Qc => transitivity ((Den * (o + q) + m) / Den)%Qc; [|field; exact Dn] end.
      f_equal. unfold Den. field. exact Wn.
    + rewrite turn_sum by auto. unfold gblow. rewrite !Odd, Odd0.
      replace (Nat.odd 1) with true by reflexivity. replace (Nat.odd 2) with false by reflexivity. unfold turned. ring.
  - rewrite turn_n by auto. apply (turn_list_length O dim s dim' k center a n Hd Hk Hn Hb (proj1 Ro)).
  - rewrite turn_n by auto. apply turn_weights_length.
  - intros j _. apply g_turn_affine.
  - intros j A p EA Hp. now apply g_turn_nth.
Qed.
End Values.

(** * Radii *)
Lemma turns_norm c s m : (fst (turns c s m) * fst (turns c s m) + snd (turns c s m) * snd (turns c s m) = (c * c + s * s) ^ m)%Qc.
Proof.
  induction m as [|m IH]; [cbn [turns fst snd Qcpower]; ring|]. cbn [turns fst snd]. change ((c * c + s * s) ^ S m)%Qc with ((c * c + s * s) * (c * c + s * s) ^ m)%Qc.
  rewrite <- IH. ring.
Qed.
Lemma pow_nonneg x m : (0 <= x)%Qc -> (0 <= x ^ m)%Qc.
Proof. intros H. induction m as [|m IH]; [discriminate|]. cbn [Qcpower]. now apply Qc_mul_nonneg. Qed.
Lemma pow_le x y m : (0 <= x)%Qc -> (x <= y)%Qc -> (x ^ m <= y ^ m)%Qc.
Proof. intros H0 H. induction m as [|m IH]; [apply Qcle_refl|]. cbn [Qcpower]. pose proof (pow_nonneg x m H0). set (p := (x ^ m)%Qc) in *. set (q := (y ^ m)%Qc) in *. clearbody p q. qnra. Qed.
Lemma pow_down x m k : (0 <= x)%Qc -> (x <= 1)%Qc -> m <= k -> (x ^ k <= x ^ m)%Qc.
Proof. intros H0 H1 L. induction L as [|k L IH]; [apply Qcle_refl|]. cbn [Qcpower]. pose proof (pow_nonneg x k H0). set (p := (x ^ k)%Qc) in *. clearbody p. qnra. Qed.
Lemma pow_up x m k : (1 <= x)%Qc -> m <= k -> (x ^ m <= x ^ k)%Qc.
Proof. intros H1 L. induction L as [|k L IH]; [apply Qcle_refl|]. cbn [Qcpower]. assert (0 <= x ^ k)%Qc by (apply pow_nonneg; qlra). set (p := (x ^ k)%Qc) in *. clearbody p. qnra. Qed.
Lemma qabs_bounds x e : (qabs x <= e)%Qc -> (- e <= x)%Qc /\ (x <= e)%Qc.
Proof. unfold qabs. destruct (Qclt_le_dec x 0); intros; split; qlra. Qed.

(** One segment: numerator and denominator of the squared radius. *)
Lemma segment_round eps c s w t : small eps -> (qabs (c * c + s * s - 1) <= eps)%Qc -> (qabs (w - c) <= eps)%Qc -> (0 < w)%Qc -> (0 <= t)%Qc -> (t <= 1)%Qc ->
  let D := ((1 - t) * (1 - t) + (1 + 1) * t * (1 - t) * w + t * t)%Qc in
  let X := ((1 - t) * (1 - t) + (1 + 1) * t * (1 - t) * c + t * t * (c * c - s * s))%Qc in
  let Y := ((1 + 1) * t * (1 - t) * s + t * t * ((1 + 1) * c * s))%Qc in
  (0 < D)%Qc /\ ((1 - inj 24 * eps) * (D * D) <= X * X + Y * Y)%Qc /\ (X * X + Y * Y <= (1 + inj 24 * eps) * (D * D))%Qc.
Proof.
  intros [E0 E1] HR HW W0 T0 T1 D X Y. apply qabs_bounds in HR as [R1 R2]. apply qabs_bounds in HW as [W1 W2].
  set (r := (c * c + s * s)%Qc) in *.
  set (b0 := ((1 - t) * (1 - t))%Qc). set (b1 := ((1 + 1) * t * (1 - t))%Qc). set (b2 := (t * t)%Qc).
  assert (0 <= b0)%Qc as B0 by (apply Qc_mul_nonneg; qlra). assert (0 <= b2)%Qc as B2 by (apply Qc_mul_nonneg; qlra).
  assert (0 <= b1)%Qc as B1 by (apply Qc_mul_nonneg; [apply Qc_mul_nonneg|]; qlra).
  assert (b0 + b1 + b2 = 1)%Qc as Bs by (unfold b0, b1, b2; ring).
  assert (b1 * b1 = (1 + 1 + 1 + 1) * (b0 * b2))%Qc as Bq by (unfold b0, b1, b2; ring).
  assert (1 <= (1 + 1) * (b0 + b2))%Qc as Bh.
  { unfold b0, b2. assert (0 <= (t + t - 1) * (t + t - 1))%Qc by (destruct (Qclt_le_dec (t + t - 1) 0); [replace ((t + t - 1) * (t + t - 1))%Qc with ((- (t + t - 1)) * (- (t + t - 1)))%Qc by ring|]; apply Qc_mul_nonneg; qlra). clear - H. qnra. }
  assert (c * c <= qc 25 24)%Qc as Cc.
  { assert (0 <= s * s)%Qc by (destruct (Qclt_le_dec s 0); [replace (s * s)%Qc with ((- s) * (- s))%Qc by ring|]; apply Qc_mul_nonneg; qlra). assert (qc 25 24 = 1 + qc 1 24)%Qc as -> by (apply Qc_is_canon; vm_compute; reflexivity). unfold r in *. qlra. }
  assert (qc 1 24 <= 1)%Qc as Q24 by discriminate. assert (qc 25 24 <= 1 + 1)%Qc as Q25 by discriminate.
  assert (c <= 1 + 1)%Qc as C2 by (destruct (Qclt_le_dec (1 + 1) c); [exfalso; qnra|qlra]).
  assert (- (1 + 1) <= c)%Qc as C3 by (destruct (Qclt_le_dec c (- (1 + 1))); [exfalso; qnra|qlra]).
  assert (1 <= (1 + 1) * D)%Qc as D1. { unfold D. fold b0 b1 b2. pose proof (Qc_mul_nonneg b1 w B1 ltac:(qlra)). qlra. }
  assert (0 < D)%Qc as D0 by qlra.
  assert (X * X + Y * Y - D * D = b1 * b1 * ((c - w) * (c + w)) + b1 * b1 * qc 1 2 * (r - 1) + b2 * b2 * ((r - 1) * (r + 1)) + (1 + 1) * (b0 * b1) * (c - w) + (1 + 1) * (b1 * b2) * ((r - 1) * c + (c - w)))%Qc as E.
  { assert (qc 1 2 = 1 / (1 + 1))%Qc as -> by (apply Qc_is_canon; vm_compute; reflexivity). unfold X, Y, D, r, b0, b1, b2. field. discriminate. }
  assert (qabs (X * X + Y * Y - D * D) <= inj 6 * eps)%Qc as EB.
  { rewrite E. set (p := (c - w)%Qc) in *. set (q := (r - 1)%Qc) in *.
    assert (- eps <= p /\ p <= eps)%Qc as [P1 P2] by (unfold p; split; qlra). assert (- eps <= q /\ q <= eps)%Qc as [Q1 Q2] by (split; [exact R1|exact R2]).
    assert (inj 6 = 1 + 1 + 1 + 1 + 1 + 1)%Qc as -> by (apply Qc_is_canon; vm_compute; reflexivity).
    set (e6 := ((1 + 1 + 1 + 1 + 1 + 1) * eps)%Qc).
    assert (- ((1 + 1 + 1 + 1 + 1) * eps) <= p * (c + w) /\ p * (c + w) <= (1 + 1 + 1 + 1 + 1) * eps)%Qc as [X1 X1'].
    { assert (- (1 + 1 + 1 + 1 + 1) <= c + w /\ c + w <= 1 + 1 + 1 + 1 + 1)%Qc as [S1 S2] by (split; qlra). clear - P1 P2 S1 S2 E0. split; qnra. }
    assert (- ((1 + 1 + 1) * eps) <= q * (r + 1) /\ q * (r + 1) <= (1 + 1 + 1) * eps)%Qc as [X2 X2'].
    { assert (0 <= r + 1 /\ r + 1 <= 1 + 1 + 1)%Qc as [S1 S2] by (unfold q in *; split; qlra). clear - Q1 Q2 S1 S2 E0. split; qnra. }
    assert (- ((1 + 1 + 1) * eps) <= q * c + p /\ q * c + p <= (1 + 1 + 1) * eps)%Qc as [X3 X3'].
    { clear - Q1 Q2 P1 P2 C2 C3 E0. split; qnra. }
    set (x1 := (p * (c + w))%Qc) in *. set (x2 := (q * (r + 1))%Qc) in *. set (x3 := (q * c + p)%Qc) in *.
    assert (0 <= b1 * b1 /\ 0 <= b2 * b2 /\ 0 <= b0 * b1 /\ 0 <= b1 * b2 /\ 0 <= b0 * b0 /\ 0 <= b0 * b2)%Qc as (N1 & N2 & N3 & N4 & N5 & N6) by (repeat split; now apply Qc_mul_nonneg).
    assert (b0 * b0 + b1 * b1 + b2 * b2 + (1 + 1) * (b0 * b1) + (1 + 1) * (b1 * b2) + (1 + 1) * (b0 * b2) = 1)%Qc as Sq.
    { transitivity ((b0 + b1 + b2) * (b0 + b1 + b2))%Qc; [ring|]. rewrite Bs. ring. }
    set (m1 := (b1 * b1)%Qc) in *. set (m2 := (b2 * b2)%Qc) in *. set (m3 := (b0 * b1)%Qc) in *. set (m4 := (b1 * b2)%Qc) in *. set (m5 := (b0 * b0)%Qc) in *. set (m6 := (b0 * b2)%Qc) in *.
    assert (qc 1 2 = 1 / (1 + 1))%Qc as Hh by (apply Qc_is_canon; vm_compute; reflexivity).
    set (hq := (qc 1 2 * q)%Qc). assert (- eps <= hq /\ hq <= eps)%Qc as [Y1 Y2].
    { assert (hq + hq = q)%Qc as HH by (unfold hq; rewrite Hh; field; discriminate). split; qlra. }
    assert (m1 * qc 1 2 * q = m1 * hq)%Qc as -> by (unfold hq; ring).
    clearbody m1 m2 m3 m4 m5 m6 x1 x2 x3 hq p q. clear - N1 N2 N3 N4 N5 N6 Sq X1 X1' X2 X2' X3 X3' Y1 Y2 P1 P2 E0.
    assert (0 <= m1 * (e6 - x1 - hq) /\ 0 <= m1 * (e6 + x1 + hq))%Qc as [Z1 Z1'] by (split; apply Qc_mul_nonneg; auto; unfold e6; qlra).
    assert (0 <= m2 * (e6 - x2) /\ 0 <= m2 * (e6 + x2))%Qc as [Z2 Z2'] by (split; apply Qc_mul_nonneg; auto; unfold e6; qlra).
    assert (0 <= m3 * (e6 - p) /\ 0 <= m3 * (e6 + p))%Qc as [Z3 Z3'] by (split; apply Qc_mul_nonneg; auto; unfold e6; qlra).
    assert (0 <= m4 * (e6 - x3) /\ 0 <= m4 * (e6 + x3))%Qc as [Z4 Z4'] by (split; apply Qc_mul_nonneg; auto; unfold e6; qlra).
    assert (0 <= e6)%Qc as Ee by (unfold e6; qlra). pose proof (Qc_mul_nonneg _ _ N5 Ee) as Z5. pose proof (Qc_mul_nonneg _ _ N6 Ee) as Z6.
    assert (e6 = m5 * e6 + m1 * e6 + m2 * e6 + (1 + 1) * (m3 * e6) + (1 + 1) * (m4 * e6) + (1 + 1) * (m6 * e6))%Qc as Es.
    { transitivity ((m5 + m1 + m2 + (1 + 1) * m3 + (1 + 1) * m4 + (1 + 1) * m6) * e6)%Qc; [rewrite Sq; ring|ring]. }
    clearbody e6. unfold qabs. destruct (Qclt_le_dec _ 0); clear Sq; qlra. }
  apply qabs_bounds in EB as [L1 L2].
  assert (inj 6 * eps <= inj 24 * eps * (D * D))%Qc as Fin.
  { assert (inj 24 = inj 6 * (1 + 1 + 1 + 1))%Qc as -> by (apply Qc_is_canon; vm_compute; reflexivity).
    assert (1 <= (1 + 1 + 1 + 1) * (D * D))%Qc as DD by (clear - D1 D0; qnra). assert (0 <= inj 6 * eps)%Qc as N by (apply Qc_mul_nonneg; [discriminate|exact E0]).
    set (x := (inj 6 * eps)%Qc) in *. assert (inj 6 * (1 + 1 + 1 + 1) * eps * (D * D) = x * ((1 + 1 + 1 + 1) * (D * D)))%Qc as -> by (unfold x; ring).
    set (y := ((1 + 1 + 1 + 1) * (D * D))%Qc) in *. clearbody x y. clear - DD N. qnra. }
  split; [exact D0|]. set (z := (inj 24 * eps)%Qc) in *. set (d2 := (D * D)%Qc) in *. set (e6 := (inj 6 * eps)%Qc) in *. clearbody z d2 e6 X Y. clear - Fin L1 L2. split; qlra.
Qed.

(** Whole turns. *)
Lemma turns_add c s m j : turns c s (m + j) =
  (fst (turns c s m) * fst (turns c s j) - snd (turns c s m) * snd (turns c s j), snd (turns c s m) * fst (turns c s j) + fst (turns c s m) * snd (turns c s j))%Qc.
Proof.
  induction j as [|j IH]; [rewrite Nat.add_0_r; cbn [turns fst snd]; rewrite (surjective_pairing (turns c s m)) at 1; f_equal; ring|].
  rewrite Nat.add_succ_r. cbn [turns fst snd]. rewrite IH. cbn [fst snd]. f_equal; ring.
Qed.
Lemma le_div x y z : (0 < z)%Qc -> (y * z <= x)%Qc -> (y <= x / z)%Qc.
Proof.
  intros Hz H. assert (x = (x / z) * z)%Qc as E by (field; intros ->; discriminate Hz). rewrite E in H.
  destruct (Qclt_le_dec (x / z)%Qc y) as [L|L]; [exfalso; set (q := (x / z)%Qc) in *; clearbody q; clear E; qnra|exact L].
Qed.
Lemma round_point eps n m x y c s w t : small eps -> (qabs (c * c + s * s - 1) <= eps)%Qc -> (qabs (w - c) <= eps)%Qc -> (0 < w)%Qc ->
  (0 <= t)%Qc -> (t <= 1)%Qc -> m < n -> (x * x + y * y = (c * c + s * s) ^ (2 * m))%Qc ->
  let D := ((1 - t) * (1 - t) + (1 + 1) * t * (1 - t) * w + t * t)%Qc in
  let X := ((1 - t) * (1 - t) + (1 + 1) * t * (1 - t) * c + t * t * (c * c - s * s))%Qc in
  let Y := ((1 + 1) * t * (1 - t) * s + t * t * ((1 + 1) * c * s))%Qc in
  nearly_unit eps n ((x * X - y * Y) / D)%Qc ((y * X + x * Y) / D)%Qc.
Proof.
  intros Hs HR HW W0 T0 T1 Hm XY D X Y. destruct (segment_round eps c s w t Hs HR HW W0 T0 T1) as (D0 & L & U). fold D X Y in D0, L, U.
  clearbody D X Y. destruct Hs as [E0 E1]. apply qabs_bounds in HR as [R1 R2].
  set (r := (c * c + s * s)%Qc) in *. clearbody r. assert (qc 1 24 <= 1)%Qc as Q1 by discriminate.
  assert (inj 24 * eps <= 1)%Qc as Q2. { assert (inj 24 * qc 1 24 = 1)%Qc as <- by (apply Qc_is_canon; vm_compute; reflexivity). assert (0 <= inj 24)%Qc by discriminate. set (h := inj 24) in *. set (k := qc 1 24) in *. clearbody h k. clear - H E1. qnra. }
  assert (0 <= inj 24 * eps)%Qc as Q3 by (apply Qc_mul_nonneg; [discriminate|exact E0]).
  set (z := (inj 24 * eps)%Qc) in *.
  assert ((x * X - y * Y) / D * ((x * X - y * Y) / D) + (y * X + x * Y) / D * ((y * X + x * Y) / D) = (x * x + y * y) * ((X * X + Y * Y) / (D * D)))%Qc as E.
  { assert (D <> 0)%Qc by (intros ->; discriminate D0). field. exact H. }
  assert (0 < D * D)%Qc as DD by now apply Qc_mul_pos.
  assert (1 - z <= (X * X + Y * Y) / (D * D))%Qc as L' by now apply le_div.
  assert ((X * X + Y * Y) / (D * D) <= 1 + z)%Qc as U' by now apply Qc_div_le.
  set (q := ((X * X + Y * Y) / (D * D))%Qc) in *. clearbody q. unfold nearly_unit, low, high. rewrite E, XY. fold z.
  assert ((1 - eps) ^ (2 * n) <= r ^ (2 * m))%Qc as P1.
  { apply Qcle_trans with ((1 - eps) ^ (2 * m))%Qc; [apply pow_down; [qlra|qlra|lia]|apply pow_le; qlra]. }
  assert (r ^ (2 * m) <= (1 + eps) ^ (2 * n))%Qc as P2.
  { apply Qcle_trans with ((1 + eps) ^ (2 * m))%Qc; [apply pow_le; qlra|apply pow_up; [qlra|lia]]. }
  assert (0 <= (1 - eps) ^ (2 * n))%Qc as P3 by (apply pow_nonneg; qlra).
  set (lo := ((1 - eps) ^ (2 * n))%Qc) in *. set (hi := ((1 + eps) ^ (2 * n))%Qc) in *. set (v := (r ^ (2 * m))%Qc) in *. clearbody lo hi v z.
  clear - P1 P2 P3 L' U' Q2 Q3. split.
  - assert (0 <= (v - lo) * q)%Qc by (apply Qc_mul_nonneg; qlra). assert (0 <= lo * (q - (1 - z)))%Qc by (apply Qc_mul_nonneg; qlra). qlra.
  - assert (0 <= (hi - v) * (1 + z))%Qc by (apply Qc_mul_nonneg; qlra). assert (0 <= v * (1 + z - q))%Qc by (apply Qc_mul_nonneg; qlra). qlra.
Qed.
Lemma div_split a b D p q : (a / D * p + b / D * q = (a * p + b * q) / D)%Qc.
Proof. unfold Qcdiv. ring. Qed.

Section Round.
Variables (eps : Qc) (O : oracles) (limit dim : nat) (s : spline) (dim' : nat) (k center : option (list Qc)) (a : Qc) (n : nat).
Hypothesis (So : sound limit dim s) (Hd : dim <= dim') (Hk : dim' = space (as_vector k))
  (Hk3 : match k with Some l => length l = 3 | None => True end)
  (Hc : match center with Some c => length c = dim' | None => True end)
  (Hn : 1 <= n) (Hb : has_kvs s = false -> n = 1) (Hs : small eps) (Nc : nearly_circular eps O a) (Ro : rotates O k a)
  (Un : unit_axis (as_vector k)) (Hw : sp_weights s <> None).
Let weight := o_sin O (o_pi O / inj 2 - a)%Qc.
Let from us e := (embedded_in dim (sp_value s us) e - origin center e)%Qc.

Lemma round_values us t : sp_domain s us -> (0 <= t)%Qc -> (t <= inj n)%Qc ->
  exists al be, nearly_unit eps n al be /\
    forall d, d < dim' -> sp_value (turn_result O s dim' k center a n) (us ++ [t]) d = (origin center d + turned (as_vector k) al be (from us) d)%Qc.
Proof.
  intros D T0 T1. destruct (segment_of n t Hn T0 T1) as (c & r & Hcn & R0 & R1 & ->). destruct Nc as (N1 & N2 & N3).
  pose proof (turns_norm (o_cos O a) (o_sin O a) (2 * c)) as TN.
  set (x := fst (turns (o_cos O a) (o_sin O a) (2 * c))) in *. set (y := snd (turns (o_cos O a) (o_sin O a) (2 * c))) in *.
  pose proof (round_point eps n c x y _ _ _ r Hs N1 N2 N3 R0 R1 Hcn TN) as RP. cbn zeta in RP.
  match type of RP with nearly_unit _ _ ?al ?be => exists al, be end. split; [exact RP|]. clear RP.
  intros d Hdd. rewrite (g_turn_value O limit dim s dim' k center a n So Hd Hk Hk3 Hc Hn Hb N3 Ro Un us c r d D Hcn R0 R1 Hdd). cbn zeta.
  unfold gspot. change (fun e : nat => embedded_in dim (sp_value s us) e - origin center e)%Qc with (from us).
  replace (embedded_in dim (sp_value s us) d - origin center d)%Qc with (from us d) by reflexivity.
  destruct (sp_weights s); [|congruence]. rewrite !turns_add. cbn [fst snd]. change (turns (o_cos O a) (o_sin O a) 1) with (1 * o_cos O a - 0 * o_sin O a, 0 * o_cos O a + 1 * o_sin O a)%Qc.
  change (turns (o_cos O a) (o_sin O a) 2) with ((1 * o_cos O a - 0 * o_sin O a) * o_cos O a - (0 * o_cos O a + 1 * o_sin O a) * o_sin O a, (0 * o_cos O a + 1 * o_sin O a) * o_cos O a + (1 * o_cos O a - 0 * o_sin O a) * o_sin O a)%Qc.
  cbn [fst snd]. fold x y. unfold turned. set (q := axial (as_vector k) (from us) d). set (v := quarter (as_vector k) (from us) d).
  rewrite <- !Qcplus_assoc. f_equal. f_equal. rewrite div_split. f_equal. ring.
Qed.
Lemma round_knots us m d : sp_domain s us -> m <= n -> d < dim' ->
  sp_value (turn_result O s dim' k center a n) (us ++ [inj m]) d =
  (origin center d + turned (as_vector k) (fst (turns (o_cos O a) (o_sin O a) (2 * m))) (snd (turns (o_cos O a) (o_sin O a) (2 * m))) (from us) d)%Qc.
Proof.
  intros D Hm Hdd. destruct Nc as (N1 & N2 & N3).
  assert (exists c r, c < n /\ ((r = 0%Qc /\ m = c) \/ (r = 1%Qc /\ m = c + 1)) /\ inj m = (inj c + r)%Qc) as (c & r & Hcn & Hr & E).
  { destruct (Nat.eq_dec m n) as [-> |N].
    - exists (n - 1), 1%Qc. split; [lia|]. split; [right; split; [reflexivity|lia]|]. replace n with (S (n - 1)) at 1 by lia. rewrite inj_S. ring.
    - exists m, 0%Qc. split; [lia|]. split; [now left|ring]. }
  rewrite E. assert (0 <= r /\ r <= 1)%Qc as [R0 R1] by (destruct Hr as [[-> _]|[-> _]]; split; discriminate).
  rewrite (g_turn_value O limit dim s dim' k center a n So Hd Hk Hk3 Hc Hn Hb N3 Ro Un us c r d D Hcn R0 R1 Hdd). cbn zeta.
  unfold gspot. change (fun e : nat => embedded_in dim (sp_value s us) e - origin center e)%Qc with (from us).
  replace (embedded_in dim (sp_value s us) d - origin center d)%Qc with (from us d) by reflexivity.
  destruct (sp_weights s); [|congruence]. unfold turned.
  destruct Hr as [[-> ->]|[-> ->]].
  - field. unfold weight. intros H. ring_simplify in H. discriminate H.
  - replace (2 * (c + 1)) with (2 * c + 2) by lia. field. intros H. ring_simplify in H. discriminate H.
Qed.
Lemma round_sound : length (sp_axes s) < limit -> (has_kvs s = false -> dim' <= limit) -> sound limit dim' (turn_result O s dim' k center a n).
Proof.
  intros R1 R2. assert (length (o_rotation O k a) = match k with None => 2 | Some _ => 3 end) as Ln by (destruct Ro as [L _]; destruct k; exact L).
  pose proof (turn_make O limit dim s dim' k center a n So Hd Hk Hk3 Hc Hn Hb) as TM.
  assert (length (o_rotation O k a) = dim') as Ln' by (rewrite Ln, Hk; now destruct k).
  destruct So as (St & (W1 & W2 & W3) & Rw & Pos).
  refine (conj _ (conj _ (conj _ _))).
  - destruct (turn_consistent O limit dim s dim' k center a n So Hd Hk Hk3 Hc Hn Hb) as (degs & kvs & cps & ws & Co & _); auto.
    eapply P_Shapes.make_storable; [exact Co|]. apply TM; auto.
  - pose proof (turn_count O dim s dim' k center a n Hd Hk Hn Hb) as TC. pose proof (turn_ws O limit dim s dim' k center a n So Hd Hk Hn Hb) as TW.
    unfold turn_result, swept, sp_wf, sp_res. cbn [sp_axes sp_cps sp_weights]. fold weight in TW |- *. unfold sp_res in *.
    assert (fold_right Nat.mul 1 (map ax_n (sp_axes s ++ [turn_axis s n])) = length (sp_cps s) * blocks s 2 (revolved_knots n)) as ->.
    { rewrite W2, map_app, fold_right_app. cbn [map fold_right]. rewrite turn_n by auto. rewrite (turn_blocks s n Hn Hb).
      generalize (map ax_n (sp_axes s)). intros l. induction l as [|x l IH]; cbn [fold_right]; [lia|]. rewrite IH. lia. }
    split; [apply Forall_app; split; [exact W1|constructor; [|constructor]]|].
    + unfold turn_axis, new_axis. destruct (has_kvs s); [|exact I]. unfold ax_wf.
      assert (length (map inj (seq 0 (n + 1))) = n + 1) as Lm by now rewrite map_length, seq_length.
      pose proof (joined_bezier 2 n _ _ ltac:(lia) Hn Lm (revolved_sorted n) (revolved_knots_eq n Hn)) as B.
      pose proof (axis_points _ _ _ _ B) as E. apply axis_wf in B. rewrite E. exact B.
    + split; [now apply TC|]. destruct (option_map _ _); [|exact I]. rewrite TW by auto. now apply TC.
  - unfold turn_result, swept. cbn [sp_cps]. now apply (turn_rows O limit dim).
  - unfold turn_result, swept. cbn [sp_weights]. fold weight. destruct (sp_weights s) as [ws|]; [|exact I]. cbn [option_map].
    destruct Nc as (_ & _ & N3). fold weight in N3. apply Forall_forall. intros x Hx. apply in_flat_map in Hx as (o & Ho & Hx). apply in_map_iff in Hx as (w & <- & Hw').
    rewrite Forall_forall in Pos. apply Qc_mul_pos; [|now apply Pos].
    unfold turn_weights in Ho. destruct Ho as [<- |Ho]; [reflexivity|]. apply in_concat in Ho as (l & Hl & Ho). apply repeat_spec in Hl. subst l.
    destruct Ho as [<- |[<- |[]]]; [exact N3|reflexivity].
Qed.
End Round.
