(** What create_tile of InverseCross3D returns: gluing, and filling the cell with Cross3D. *)
From Coq Require Import String List Arith Lia ZArith QArith Qcanon Bool.
From Verif Require Import Base BaseQc S_Grid M_Grid S_Spline S_Value S_Deriv M_Core S_Integrate
  M_Tiles M_Tile2D M_Tile3D M_TileMake M_TileInverse S_Tiles S_TileFit P_Tiles P_Tile2D P_Tile3D P_TileCross3 P_TileTouch P_TileFit P_TileFill P_TileInverse P_TileInverseGlue.
Import ListNotations.
Local Open Scope list_scope.
Local Open Scope nat_scope.

Lemma center_ok ce sep x0 x1 y0 y1 z0 z1 : (ce_ok ce -> Forall ok [x0; x1; y0; y1; z0; z1] -> Forall (inv_r ce sep) [x0; x1; y0; y1; z0; z1] ->
  Forall (fun x => x * ce < qc 1 2) [x0; x1; y0; y1; z0; z1] -> ok (center ce x0 x1 y0 y1 z0 z1))%Qc.
Proof.
  intros C O B S. split; [|eapply center_bound; eauto].
  destruct C as [C _]. assert (Hc : (0 < ce)%Qc) by (clear -C; qq). clear C B S.
  assert (P : forall x, (0 < x)%Qc -> (0 < x * ce)%Qc) by (intros; now apply Qc_mul_pos).
  unfold center.
  replace ((x0 + x1 + y0 + y1 + z0 + z1) / qc 6 1 * ce)%Qc with ((x0 * ce + x1 * ce + y0 * ce + y1 * ce + z0 * ce + z1 * ce) * qc 1 6)%Qc
    by (unfold Qcdiv; replace (/ qc 6 1)%Qc with (qc 1 6) by (apply Qc_is_canon; reflexivity); ring).
  parts.
  assert (P0 := P x0 ltac:(assumption)). assert (P1 := P x1 ltac:(assumption)). assert (P2 := P y0 ltac:(assumption)).
  assert (P3 := P y1 ltac:(assumption)). assert (P4 := P z0 ltac:(assumption)). assert (P5 := P z1 ltac:(assumption)). clear P.
  clear - P0 P1 P2 P3 P4 P5. set (xa := (x0 * ce)%Qc) in *. set (xb := (x1 * ce)%Qc) in *. set (xc := (y0 * ce)%Qc) in *. set (xd := (y1 * ce)%Qc) in *. set (xe := (z0 * ce)%Qc) in *. set (xf := (z1 * ce)%Qc) in *. qq.
Qed.
Lemma inverse_ok ce sep x0 x1 y0 y1 z0 z1 : (ce_ok ce -> Forall (inv_r ce sep) [x0; x1; y0; y1; z0; z1] -> sep < qc 1 2 ->
  strict ce [[x0]; [x1]; [y0]; [y1]; [z0]; [z1]] ->
  ok sep /\ Forall ok [x0; x1; y0; y1; z0; z1] /\ ok (center ce x0 x1 y0 y1 z0 z1))%Qc.
Proof.
  intros C B S Z.
  assert (O : Forall ok [x0; x1; y0; y1; z0; z1]).
  { eapply Forall_impl; [|exact B]. intros x (_ & B1 & B2 & _). split; clear - B1 B2 S; qq. }
  split; [|split; auto].
  - inversion B as [|? ? (_ & B1 & B2 & _) _]; subst. split; auto. clear - B1 B2. qq.
  - eapply center_ok; eauto. unfold strict in Z. cbn [concat app] in Z. apply Forall_forall. intros x Hx. apply Z; auto.
Qed.
Lemma inverse_glued ce ce' sep sep' cl cl' bw bw' fh fh' p p' s s' T T' D D' a :
  inverse_create ce sep cl bw fh (Some p) s = Made T D -> inverse_create ce' sep' cl' bw' fh' (Some p') s' = Made T' D' ->
  strict ce p -> strict ce' p' -> (sep_of sep < qc 1 2)%Qc -> sep_of sep' = sep_of sep -> a < 3 ->
  (open_above a cl /\ open_below a cl' /\ at2 p (2 * a + 1) 0 = at2 p' (2 * a) 0) \/
  (beside 3 a cl /\ cl' = cl /\ bw' = bw /\ fh' = fh) -> glued 3 a T T'.
Proof.
  intros H H' S S' Hs Es Ha C. apply inverse_kinds in H, H'.
  destruct H as (Ce & _ & x0 & x1 & y0 & y1 & z0 & z1 & -> & B & K). destruct H' as (Ce' & _ & x0' & x1' & y0' & y1' & z0' & z1' & -> & B' & K').
  rewrite Es in *. set (d := sep_of sep) in *. clearbody d. clear sep sep' Es.
  destruct (inverse_ok _ _ _ _ _ _ _ _ Ce B Hs S) as (Od & O & Oc).
  destruct (inverse_ok _ _ _ _ _ _ _ _ Ce' B' Hs S') as (_ & O' & Oc').
  set (c := center ce x0 x1 y0 y1 z0 z1) in *. set (c' := center ce' x0' x1' y0' y1' z0' z1') in *. clearbody c c'. clear B B' S S' Hs Ce Ce'.
  assert (F : Forall ok [d; c; x0; x1; y0; y1; z0; z1]) by (constructor; auto).
  assert (F' : Forall ok [c'; x0'; x1'; y0'; y1'; z0'; z1']) by (constructor; auto).
  destruct C as [(A & A' & E)|((b & Hb & Hn & Hc) & -> & -> & ->)].
  - assert (a = 0 \/ a = 1 \/ a = 2) as [-> | [-> | ->]] by lia; cbn [at2 nth Nat.mul Nat.add] in E; subst;
    destruct A as [-> | ->], A' as [-> | ->]; inversion K; subst; try discriminate; inversion K'; subst; try discriminate; clear K K'.
    + now apply inv3_glued.
    + now apply inv3_glued.
    + now apply inv3_glued.
    + refine (proj1 (inv_z_glued d c x0 x1 y0 y1 z0 z0' _ _ _ _ _ _ c' x0' x1' y0' y1' z1' 0%Qc 0%Qc 0%Qc 0%Qc 0%Qc 0%Qc bw' fh' bw' fh' F _ ltac:(assumption) ltac:(assumption))).
      rewrite Forall_forall in F' |- *. intros x Hx. apply F'. cbn in Hx |- *. tauto.
    + refine (proj1 (proj2 (inv_z_glued d c x0 x1 y0 y1 z0 z0' 0%Qc 0%Qc 0%Qc 0%Qc 0%Qc 0%Qc c' x0' x1' y0' y1' z1' _ _ _ _ _ _ bw fh bw fh F _ ltac:(assumption) ltac:(assumption)))).
      rewrite Forall_forall in F' |- *. intros x Hx. apply F'. cbn in Hx |- *. tauto.
    + refine (proj2 (proj2 (inv_z_glued d c x0 x1 y0 y1 z0 z0' 0%Qc 0%Qc 0%Qc 0%Qc 0%Qc 0%Qc c' x0' x1' y0' y1' z1' 0%Qc 0%Qc 0%Qc 0%Qc 0%Qc 0%Qc bw fh bw' fh' F _ ltac:(assumption) ltac:(assumption)))).
      rewrite Forall_forall in F' |- *. intros x Hx. apply F'. cbn in Hx |- *. tauto.
  - assert (b = 2) as ->.
    { assert (b = 0 \/ b = 1 \/ b = 2) as [-> | [-> | ->]] by lia; auto; destruct Hc as [-> | ->]; inversion K; discriminate. }
    assert (Z : ok z0 /\ ok z1 /\ ok z0' /\ ok z1') by (rewrite Forall_forall in O, O'; split; [|split; [|split]]; [apply O|apply O|apply O'|apply O']; cbn; tauto).
    destruct Z as (Z0 & Z1 & Z0' & Z1'). assert (Ha2 : a < 2) by lia.
    destruct Hc as [-> | ->]; inversion K; subst; try discriminate; inversion K'; subst; try discriminate; clear K K'.
    + exact (proj1 (inv_beside_glued a bw fh d z1 z1' Ha2 ltac:(assumption) Od Z1 Z1')).
    + exact (proj2 (inv_beside_glued a bw fh d z0 z0' Ha2 ltac:(assumption) Od Z0 Z0')).
Qed.
Lemma inverse_touches ce sep cl bw fh p s T D a : inverse_create ce sep cl bw fh (Some p) s = Made T D -> a < 3 -> open_above a cl \/ beside 3 a cl -> touches a 1%Qc T.
Proof.
  intros H Ha C. apply inverse_kinds in H. destruct H as (_ & _ & x0 & x1 & y0 & y1 & z0 & z1 & -> & _ & K).
  set (c := center ce x0 x1 y0 y1 z0 z1) in *. clearbody c.
  assert (E : a = 0 \/ a = 1 \/ a = 2) by lia. inversion K; subst; clear K;
  (destruct C as [[C|C]|(b & Hb & Hn & [C|C])]; try discriminate C; destruct E as [-> | [-> | ->]]; try discriminate C;
   try (assert (b = 0 \/ b = 1 \/ b = 2) as [-> | [-> | ->]] by lia; try discriminate C; try lia)).
  all: lazymatch goal with |- touches _ _ (inv3 _ _ _ _ _ _ _ _ _ _ _ _ _ _) => touch inv_sample
    | |- touches _ _ (inv_bottom _ _ _ _) => touch inv_bottom_sample | |- touches _ _ (inv_top _ _ _ _) => touch inv_top_sample end.
Qed.
Lemma qmin_left x y : (x <= y)%Qc -> qmin x y = x.
Proof. intros H. unfold qmin. destruct (qleb_spec x y); tauto. Qed.
Lemma fill ce sep cl bw fh p s s' T D T' D' :
  cross3d_create ce cl bw fh (Some p) s = Made T D -> inverse_create ce sep cl bw fh (Some p) s' = Made T' D' ->
  (cl = None -> no_thicker ce p) -> (cl <> None -> (bw <= qc 1 3)%Qc) -> fitted 3 (T ++ T').
Proof.
  intros H H' N W. assert (M := cross3_inv true _ _ _ _ _ _ _ _ H). destruct M as (_ & _ & _ & M).
  apply inverse_kinds in H'. destruct H' as (Ce & _ & x0 & x1 & y0 & y1 & z0 & z1 & -> & B & K).
  assert (L : forall w, (w <= qc 1 3)%Qc -> start w 0%Qc) by (intros; left; auto).
  inversion M; subst; inversion K; subst; try discriminate; clear M K.
  - assert (Q : forall x, In x [x0; x1; y0; y1; z0; z1] -> qmin x (center ce x0 x1 y0 y1 z0 z1) = x).
    { intros x Hx. apply qmin_left. assert (E := N eq_refl x Hx). unfold mean_thickness in E. cbn [concat app fold_right] in E.
      replace (center ce x0 x1 y0 y1 z0 z1) with (ce * ((x0 + (x1 + (y0 + (y1 + (z0 + (z1 + 0)))))) / qc 6 1))%Qc; [exact E|].
      unfold center, Qcdiv. ring. }
    rewrite !Q by (cbn; tauto).
    replace (cross3_value true ce [[x0]; [x1]; [y0]; [y1]; [z0]; [z1]]) with (plain3 true (center ce x0 x1 y0 y1 z0 z1) x0 x1 y0 y1 z0 z1).
    + apply plain_fits.
    + replace (center ce x0 x1 y0 y1 z0 z1) with (ce * ((x0 + x1 + y0 + y1 + z0 + z1) / qc 6 1))%Qc by (unfold center; ring). reflexivity.
  - assert (Wb : width_ok bw fh) by assumption. destruct Wb as (W1 & W2 & W3 & W4).
    rewrite (bottom3_of true bw 0%Qc fh _ W1 W2 W3 W4 (L _ (W ltac:(discriminate)))). cbn [at2 nth]. apply bottom_fits.
  - assert (Wb : width_ok bw fh) by assumption. destruct Wb as (W1 & W2 & W3 & W4).
    rewrite (top3_of true bw 0%Qc fh _ W1 W2 W3 W4 (L _ (W ltac:(discriminate)))). cbn [at2 nth]. apply top_fits.
Qed.
(** ** Where it fails *)
Lemma not_fitted T i k up v : i < length T -> k < para_dim (nth i T none) -> in_box (para_dim (nth i T none) - 1) v ->
  negb (qeqb (facet_value (nth i T none) k up v k) (bound up)) &&
  forallb (fun j => (j =? i) || existsb (fun c => negb (qeqb (facet_value (nth i T none) k up v c) (facet_value (nth j T none) k (negb up) v c))) (seq 0 3)) (seq 0 (length T)) = true ->
  ~ fitted 3 T.
Proof.
  intros Hi Hk Hv B F. apply andb_true_iff in B. destruct B as [B1 B2]. rewrite forallb_forall in B2.
  destruct (F i k up Hi Hk) as [O|(j & Hj & N & _ & E)]; unfold patch in *; fold none in *.
  - specialize (O v Hv). rewrite O in B1. destruct (qeqb_spec (bound up) (bound up)); [discriminate B1|tauto].
  - assert (J := B2 j (proj2 (in_seq _ _ _) (conj (Nat.le_0_l j) Hj))). apply orb_true_iff in J. destruct J as [J|J]; [apply Nat.eqb_eq in J; tauto|].
    apply existsb_exists in J. destruct J as (c & Hc & Q). apply in_seq in Hc. rewrite <- (E v c Hv) in Q by lia.
    destruct (qeqb_spec (facet_value (nth i T none) k up v c) (facet_value (nth i T none) k up v c)); [discriminate Q|tauto].
Qed.
Definition thick_one : array2 := [[qc 3 10]; [qc 1 5]; [qc 1 5]; [qc 1 5]; [qc 1 5]; [qc 1 5]].
Definition the_splines (m : made) : tile := match m with Made T _ => T | Raised _ => [] end.
Definition branch_side (T : list spline) : nat * nat * bool :=
  hd (0, 0, true) (filter (fun f => let '(i, k, up) := f in (i <? length T) &&
    (negb (qeqb (facet_value (nth i T none) k up (repeat (qc 1 2) 2) k) (bound up)) &&
  forallb (fun j => (j =? i) || existsb (fun c => negb (qeqb (facet_value (nth i T none) k up (repeat (qc 1 2) 2) c) (facet_value (nth j T none) k (negb up) (repeat (qc 1 2) 2) c))) (seq 0 3)) (seq 0 (length T)))) (facets T)).
Ltac misfit T :=
  let f := eval vm_compute in (branch_side T) in
  lazymatch f with (?i, ?k, ?up) =>
    apply (not_fitted T i k up (repeat (qc 1 2) 2)); [vm_compute; lia|vm_compute; lia|split; [reflexivity|repeat constructor; discriminate]|vm_compute; reflexivity] end.
Lemma thick_misfit : exists T T', cross3d_create 1%Qc None 0%Qc 0%Qc (Some thick_one) None = Made T None /\
  inverse_create 1%Qc None None 0%Qc 0%Qc (Some thick_one) None = Made T' None /\ ~ fitted 3 (T ++ T').
Proof.
  exists (the_splines (cross3d_create 1%Qc None 0%Qc 0%Qc (Some thick_one) None)), (the_splines (inverse_create 1%Qc None None 0%Qc 0%Qc (Some thick_one) None)).
  split; [|split]; [vm_compute; reflexivity..|].
  lazymatch goal with |- ~ fitted 3 ?T => misfit T end.
Qed.
Definition quarters : array2 := full 6 1 (qc 1 4).
Lemma wall_misfit : exists T T', cross3d_create 1%Qc (Some "z_min"%string) (qc 2 5) (qc 1 2) (Some quarters) None = Made T None /\
  inverse_create 1%Qc None (Some "z_min"%string) (qc 2 5) (qc 1 2) (Some quarters) None = Made T' None /\ ~ fitted 3 (T ++ T').
Proof.
  exists (the_splines (cross3d_create 1%Qc (Some "z_min"%string) (qc 2 5) (qc 1 2) (Some quarters) None)), (the_splines (inverse_create 1%Qc None (Some "z_min"%string) (qc 2 5) (qc 1 2) (Some quarters) None)).
  split; [|split]; [vm_compute; reflexivity..|].
  lazymatch goal with |- ~ fitted 3 ?T => misfit T end.
Qed.
Lemma inverse_outside : exists T, inverse_create 1%Qc (Some (qc 3 5)) None 0%Qc 0%Qc (Some quarters) None = Made T None /\ ~ inside_cell 3 T.
Proof.
  exists (the_splines (inverse_create 1%Qc (Some (qc 3 5)) None 0%Qc 0%Qc (Some quarters) None)). split; [vm_compute; reflexivity|]. intros H.
  edestruct (H (nth 0 (the_splines (inverse_create 1%Qc (Some (qc 3 5)) None 0%Qc 0%Qc (Some quarters) None)) none) (repeat 0%Qc 3) 2) as [A _].
  - vm_compute. left. reflexivity.
  - split; [reflexivity|]. repeat constructor; discriminate.
  - lia.
  - apply A. vm_compute. reflexivity.
Qed.
