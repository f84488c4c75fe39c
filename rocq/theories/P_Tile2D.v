(** Proofs about the two dimensional tiles. *)
From Coq Require Import String List Arith Lia ZArith QArith Qcanon Bool.
From Verif Require Import Base BaseQc S_Grid M_Grid S_Spline S_Value S_Deriv M_Core S_Integrate
  M_Tiles M_Tile2D M_Tile3D M_TileMake S_Tiles P_Tiles.
Import ListNotations.
Local Open Scope list_scope.
Local Open Scope nat_scope.

Ltac reduce_tables := lazy -[Qcplus Qcmult Qcopp Qcminus Qcdiv Qcinv Q2Qc qc not Qcle Qclt qmax qmin].
Ltac all_bez := repeat (constructor; [apply is_bez_bez|]); constructor.
(** Drop the bounds of what the goal does not mention. *)
Ltac relevant := repeat match goal with
  | H : (_ < ?x)%Qc |- ?G => is_var x; lazymatch G with context [x] => fail | _ => clear H end
  | H : (?x < _)%Qc |- ?G => is_var x; lazymatch G with context [x] => fail | _ => clear H end
  end.
Ltac relevant_le := relevant; repeat match goal with
  | H : (_ <= ?x)%Qc |- ?G => is_var x; lazymatch G with context [x] => fail | _ => clear H end
  | H : (?x <= _)%Qc |- ?G => is_var x; lazymatch G with context [x] => fail | _ => clear H end
  end.
Ltac qq := unfold qc in *; qlra.
Ltac arith := idtac; lazymatch goal with
  | |- @eq Qc _ _ => first [ring | relevant; qq]
  | |- @eq _ _ _ => reflexivity
  | |- ~ _ => first [assumption | relevant; intro; qq]
  | |- _ => relevant; qq
  end.
Ltac conjuncts := repeat match goal with |- _ /\ _ => split | |- True => exact I end.
(** Conjunctions with many equal parts: each part is proved once. *)
Definition known (P : Prop) : Prop := P.
Ltac forget := repeat match goal with H : known _ |- _ => clear H end.
Ltac collect tac G := lazymatch G with
  | True => idtac
  | ?A /\ ?B => collect tac A; collect tac B
  | ?A => first
      [ match goal with H : known ?B |- _ => constr_eq A B end
      | let K := fresh "K" in assert (K : known A); [unfold known; forget; tac|] ]
  end.
Ltac facts tac := idtac; match goal with |- ?G => collect tac G end; conjuncts;
  match goal with H : known ?B |- ?A => constr_eq A B; exact H end.
Ltac tables := reduce_tables; facts ltac:(arith).
Ltac glue A B :=
  match goal with |- glued ?dim ?a _ _ =>
    let tf := eval vm_compute in (ftable dim a A B) in
    let tb := eval vm_compute in (btable dim a A B) in
    apply (glued_by_tables dim a _ _ tf tb); [lia|all_bez|all_bez|tables|tables]
  end.

Lemma qltb_lt x y : qltb x y = true -> (x < y)%Qc.
Proof. intros H. destruct (qltb_spec x y); [auto|discriminate H]. Qed.
Lemma qleb_le x y : qleb x y = true -> (x <= y)%Qc.
Proof. intros H. destruct (qleb_spec x y); [auto|discriminate H]. Qed.
Lemma qleb_gt x y : qleb x y = false -> (y < x)%Qc.
Proof. intros H. destruct (qleb_spec x y); [discriminate H|]. now apply Qcnot_le_lt. Qed.
Lemma qltb_ge x y : qltb x y = false -> (y <= x)%Qc.
Proof. intros H. destruct (qltb_spec x y); [discriminate H|]. now apply Qcnot_lt_le. Qed.
(** ** Rows of parameters *)
Lemma forallb_column n p : check_params n 1 p = true -> exists xs, p = map (fun x => [x]) xs /\ length xs = n.
Proof.
  unfold check_params. rewrite andb_true_iff, Nat.eqb_eq. intros [L H].
  exists (map (fun r => hd 0%Qc r) p). rewrite map_map, map_length. split; auto.
  clear L. induction p as [|r p IH]; [reflexivity|]. cbn in H |- *. apply andb_true_iff in H. destruct H as [H1 H2].
  rewrite Nat.eqb_eq in H1. destruct r as [|x [|? ?]]; try discriminate H1. cbn. f_equal. auto.
Qed.
Lemma all_between_in lo hi p : all_between lo hi p = true -> forall x, In x (concat p) -> (lo < x /\ x < hi)%Qc.
Proof.
  unfold all_between. rewrite andb_true_iff, !forallb_forall. intros [H1 H2] x Hx.
  split; apply qltb_lt; auto.
Qed.
Lemma qmin_lt x y z : (x < qmin y z)%Qc -> (x < y /\ x < z)%Qc.
Proof.
  unfold qmin. destruct (qleb y z) eqn:E; intros H.
  - apply qleb_le in E. split; auto. eapply Qclt_le_trans; eauto.
  - apply qleb_gt in E. split; auto. eapply Qclt_trans; eauto.
Qed.
Lemma lt_half_div x c : (0 < c)%Qc -> (x < qc 1 2 / c)%Qc -> (x * c < qc 1 2)%Qc.
Proof.
  intros Hc H. replace (qc 1 2) with (qc 1 2 / c * c)%Qc.
  - apply Qcmult_lt_compat_r; auto.
  - field. intro. subst. discriminate Hc.
Qed.

Ltac guards H := repeat match type of H with
  | (if negb ?b then _ else _) = _ => destruct b eqn:?; cbn [negb] in H; [|discriminate H]
  | (if ?b then Raised _ else _) = _ => destruct b eqn:?; [discriminate H|]
  | bind_derivatives ?r _ = _ => destruct r eqn:?; cbn [bind_derivatives] in H; [|discriminate H]
  end.
Ltac orders := repeat match goal with
  | H : qltb _ _ && qltb _ _ = true |- _ => apply andb_true_iff in H; destruct H
  | H : qltb _ _ = true |- _ => apply qltb_lt in H
  | H : qleb _ _ = true |- _ => apply qleb_le in H
  end.

(** ** Cross2D *)
Definition rates (f : array2 -> tile) (sens : option array3) : option (list tile) :=
  option_map (fun d => map (fun i => f (slice d i)) (seq 0 (n_derivatives d))) sens.
Definition ce_ok (ce : Qc) : Prop := (qc 1 2 < ce /\ ce < qc 3 2)%Qc.
Definition branch_ok (ce x : Qc) : Prop := (0 < x /\ x < qc 1 2 /\ x * ce < qc 1 2)%Qc.
Definition width_ok (bw fh : Qc) : Prop := (0 < bw /\ bw < qc 1 2 /\ 0 < fh /\ fh < 1)%Qc.
Definition cross2d_made ce cl bw fh (p : array2) sens T D : Prop :=
  match cl with
  | None => T = cross2d_value ce p /\ D = rates (cross2d_deriv ce) sens
  | Some c => width_ok bw fh /\ exists f k, cross2d_closing c = Some (f, k) /\
      T = cross2d_closing_value f fh bw (at2 p k 0) /\ D = rates (fun d => cross2d_closing_deriv f (at2 d k 0)) sens
  end.
Lemma cross2d_inv ce cl bw fh p sens T D : cross2d_create ce cl bw fh (Some p) sens = Made T D ->
  ce_ok ce /\ (exists x0 x1 y0 y1, p = [[x0]; [x1]; [y0]; [y1]] /\ Forall (branch_ok ce) [x0; x1; y0; y1]) /\
  cross2d_made ce cl bw fh p sens T D.
Proof.
  unfold cross2d_create. intros H. cbv zeta in H. guards H. orders. split; [split; auto|]. split.
  - destruct (forallb_column _ _ Heqb0) as (xs & -> & L).
    do 5 (destruct xs as [|? xs]; try discriminate L). exists q, q0, q1, q2. split; auto.
    assert (B := all_between_in _ _ _ Heqb1). clear - H0 B.
    assert (Hc : (0 < ce)%Qc) by (clear -H0; qq).
    assert (G : forall x, In x [q; q0; q1; q2] -> branch_ok ce x).
    { intros x Hx. destruct (B x) as [B1 B2]; [exact Hx|]. apply qmin_lt in B2. destruct B2 as [B2 B3].
      repeat split; auto. apply lt_half_div; auto. }
    apply Forall_forall. exact G.
  - destruct cl as [c|]; cbn [cross2d_made].
    + unfold cross2d_close in H. guards H. orders. split; [repeat split; auto|].
      destruct (cross2d_closing c) as [[f k]|]; [|discriminate H]. exists f, k. unfold loop in H. inversion H. auto.
    + unfold loop in H. inversion H. auto.
Qed.
Lemma center_bounds ce x0 x1 y0 y1 : ce_ok ce -> Forall (branch_ok ce) [x0; x1; y0; y1] ->
  (0 < (x0 + x1 + y0 + y1) / qc 4 1 * ce /\ (x0 + x1 + y0 + y1) / qc 4 1 * ce < qc 1 2)%Qc.
Proof.
  intros [C _] H.
  assert (Hc : (0 < ce)%Qc) by (clear -C; qq).
  repeat match goal with H : Forall _ (_ :: _) |- _ => inversion H; clear H; subst end.
  unfold branch_ok in *.
  assert (P : forall x, (0 < x)%Qc -> (0 < x * ce)%Qc) by (intros; now apply Qc_mul_pos).
  replace ((x0 + x1 + y0 + y1) / qc 4 1 * ce)%Qc with ((x0 * ce + x1 * ce + y0 * ce + y1 * ce) * qc 1 4)%Qc
    by (unfold Qcdiv; replace (/ qc 4 1)%Qc with (qc 1 4) by (apply Qc_is_canon; reflexivity); ring).
  assert (P0 := P x0 ltac:(tauto)). assert (P1 := P x1 ltac:(tauto)). assert (P2 := P y0 ltac:(tauto)). assert (P3 := P y1 ltac:(tauto)).
  destruct H2 as (_ & _ & A0), H1 as (_ & _ & A1), H3 as (_ & _ & A2), H4 as (_ & _ & A3).
  clear - P0 P1 P2 P3 A0 A1 A2 A3. set (a := (x0 * ce)%Qc) in *. set (b := (x1 * ce)%Qc) in *. set (c := (y0 * ce)%Qc) in *. set (d := (y1 * ce)%Qc) in *.
  split; qq.
Qed.
Definition cross (c x0 x1 y0 y1 : Qc) : tile := cross2d_splines (qc 1 2) c (qc 1 2 * (qc 1 2 + c))%Qc x0 x1 y0 y1.
Definition ok (x : Qc) : Prop := (0 < x /\ x < qc 1 2)%Qc.
Definition cross_sample : tile := cross (qc 1 5) (qc 1 5) (qc 1 5) (qc 1 5) (qc 1 5).
Definition closed_sample f : tile := cross2d_closing_value f (qc 1 2) (qc 1 10) (qc 1 5).
Ltac oks := unfold ok, width_ok in *; repeat match goal with H : _ /\ _ |- _ => destruct H end.
Lemma cross_glued_x c x0 x1 y0 y1 c' x1' y0' y1' : ok c -> ok c' -> ok y0 -> ok y1 -> ok y0' -> ok y1' ->
  glued 2 0 (cross c x0 x1 y0 y1) (cross c' x1 x1' y0' y1').
Proof. intros. oks. glue cross_sample cross_sample. Qed.
Lemma cross_glued_y c x0 x1 y0 y1 c' x0' x1' y1' : ok c -> ok c' -> ok x0 -> ok x1 -> ok x0' -> ok x1' ->
  glued 2 1 (cross c x0 x1 y0 y1) (cross c' x0' x1' y1 y1').
Proof. intros. oks. glue cross_sample cross_sample. Qed.
Lemma cross_x_min fh bw b c x1 y0 y1 : width_ok bw fh -> ok b -> ok c -> ok y0 -> ok y1 -> glued 2 0 (cross2d_closing_value cross2d_x_min fh bw b) (cross c b x1 y0 y1).
Proof. intros. oks. glue (closed_sample cross2d_x_min) cross_sample. Qed.
Lemma cross_x_max fh bw b c x0 y0 y1 : width_ok bw fh -> ok b -> ok c -> ok y0 -> ok y1 -> glued 2 0 (cross c x0 b y0 y1) (cross2d_closing_value cross2d_x_max fh bw b).
Proof. intros. oks. glue cross_sample (closed_sample cross2d_x_max). Qed.
Lemma cross_y_min fh bw b c x0 x1 y1 : width_ok bw fh -> ok b -> ok c -> ok x0 -> ok x1 -> glued 2 1 (cross2d_closing_value cross2d_y_min fh bw b) (cross c x0 x1 b y1).
Proof. intros. oks. glue (closed_sample cross2d_y_min) cross_sample. Qed.
Lemma cross_y_max fh bw b c x0 x1 y0 : width_ok bw fh -> ok b -> ok c -> ok x0 -> ok x1 -> glued 2 1 (cross c x0 x1 y0 b) (cross2d_closing_value cross2d_y_max fh bw b).
Proof. intros. oks. glue cross_sample (closed_sample cross2d_y_max). Qed.
Lemma cross_x_both fh bw fh' bw' b : width_ok bw fh -> width_ok bw' fh' -> ok b -> glued 2 0 (cross2d_closing_value cross2d_x_min fh bw b) (cross2d_closing_value cross2d_x_max fh' bw' b).
Proof. intros. oks. glue (closed_sample cross2d_x_min) (closed_sample cross2d_x_max). Qed.
Lemma cross_y_both fh bw fh' bw' b : width_ok bw fh -> width_ok bw' fh' -> ok b -> glued 2 1 (cross2d_closing_value cross2d_y_min fh bw b) (cross2d_closing_value cross2d_y_max fh' bw' b).
Proof. intros. oks. glue (closed_sample cross2d_y_min) (closed_sample cross2d_y_max). Qed.
Lemma cross_x_min_along fh bw b b' : width_ok bw fh -> ok b -> ok b' -> glued 2 1 (cross2d_closing_value cross2d_x_min fh bw b) (cross2d_closing_value cross2d_x_min fh bw b').
Proof. intros. oks. glue (closed_sample cross2d_x_min) (closed_sample cross2d_x_min). Qed.
Lemma cross_x_max_along fh bw b b' : width_ok bw fh -> ok b -> ok b' -> glued 2 1 (cross2d_closing_value cross2d_x_max fh bw b) (cross2d_closing_value cross2d_x_max fh bw b').
Proof. intros. oks. glue (closed_sample cross2d_x_max) (closed_sample cross2d_x_max). Qed.
Lemma cross_y_min_along fh bw b b' : width_ok bw fh -> ok b -> ok b' -> glued 2 0 (cross2d_closing_value cross2d_y_min fh bw b) (cross2d_closing_value cross2d_y_min fh bw b').
Proof. intros. oks. glue (closed_sample cross2d_y_min) (closed_sample cross2d_y_min). Qed.
Lemma cross_y_max_along fh bw b b' : width_ok bw fh -> ok b -> ok b' -> glued 2 0 (cross2d_closing_value cross2d_y_max fh bw b) (cross2d_closing_value cross2d_y_max fh bw b').
Proof. intros. oks. glue (closed_sample cross2d_y_max) (closed_sample cross2d_y_max). Qed.
Lemma branch_okb ce x : branch_ok ce x -> ok x.
Proof. intros (? & ? & ?). split; auto. Qed.
Lemma cross2d_value_cross ce x0 x1 y0 y1 :
  cross2d_value ce [[x0]; [x1]; [y0]; [y1]] = cross ((x0 + x1 + y0 + y1) / qc 4 1 * ce)%Qc x0 x1 y0 y1.
Proof. reflexivity. Qed.
(** What create_tile returns. *)
Inductive cross2d_kind (cl : option string) (bw fh x0 x1 y0 y1 : Qc) : tile -> Prop :=
| KPlain c : cl = None -> ok c -> cross2d_kind cl bw fh x0 x1 y0 y1 (cross c x0 x1 y0 y1)
| KXmin : cl = Some "x_min"%string -> width_ok bw fh -> cross2d_kind cl bw fh x0 x1 y0 y1 (cross2d_closing_value cross2d_x_min fh bw x1)
| KXmax : cl = Some "x_max"%string -> width_ok bw fh -> cross2d_kind cl bw fh x0 x1 y0 y1 (cross2d_closing_value cross2d_x_max fh bw x0)
| KYmin : cl = Some "y_min"%string -> width_ok bw fh -> cross2d_kind cl bw fh x0 x1 y0 y1 (cross2d_closing_value cross2d_y_min fh bw y1)
| KYmax : cl = Some "y_max"%string -> width_ok bw fh -> cross2d_kind cl bw fh x0 x1 y0 y1 (cross2d_closing_value cross2d_y_max fh bw y0).
Lemma cross2d_kinds ce cl bw fh p sens T D : cross2d_create ce cl bw fh (Some p) sens = Made T D ->
  exists x0 x1 y0 y1, p = [[x0]; [x1]; [y0]; [y1]] /\ ok x0 /\ ok x1 /\ ok y0 /\ ok y1 /\ cross2d_kind cl bw fh x0 x1 y0 y1 T.
Proof.
  intros H. apply cross2d_inv in H. destruct H as (C & (x0 & x1 & y0 & y1 & -> & B) & M).
  pose proof (center_bounds ce x0 x1 y0 y1 C B) as CB.
  exists x0, x1, y0, y1. split; auto. rewrite Forall_forall in B.
  assert (forall x, In x [x0; x1; y0; y1] -> ok x) as O by (intros; eapply branch_okb; eauto).
  repeat (split; [apply O; cbn; tauto|]).
  destruct cl as [c|]; cbn [cross2d_made] in M.
  - destruct M as (W & f & k & E & -> & _). unfold cross2d_closing in E.
    repeat match type of E with context [string_dec ?a ?b] => destruct (string_dec a b) as [->|?] end; try discriminate E; inversion E; subst f k.
    + now apply KXmin.
    + now apply KXmax.
    + now apply KYmin.
    + now apply KYmax.
  - destruct M as (-> & _). rewrite cross2d_value_cross. now apply KPlain.
Qed.
Lemma cross2d_glued ce ce' cl cl' bw bw' fh fh' p p' s s' T T' D D' a :
  cross2d_create ce cl bw fh (Some p) s = Made T D -> cross2d_create ce' cl' bw' fh' (Some p') s' = Made T' D' -> a < 2 ->
  (open_above a cl /\ open_below a cl' /\ at2 p (2 * a + 1) 0 = at2 p' (2 * a) 0) \/
  (beside 2 a cl /\ cl' = cl /\ bw' = bw /\ fh' = fh) -> glued 2 a T T'.
Proof.
  intros H H' Ha C. apply cross2d_kinds in H, H'.
  destruct H as (x0 & x1 & y0 & y1 & -> & Ox0 & Ox1 & Oy0 & Oy1 & K). destruct H' as (x0' & x1' & y0' & y1' & -> & Ox0' & Ox1' & Oy0' & Oy1' & K').
  destruct C as [(A & B & E)|((b & Hb & Hn & Hc) & -> & -> & ->)].
  - assert (a = 0 \/ a = 1) as [-> | ->] by lia; cbn [at2 nth Nat.mul Nat.add] in E; subst;
    destruct A as [-> | ->], B as [-> | ->]; inversion K; subst; try discriminate; inversion K'; subst; try discriminate.
    + now apply cross_glued_x.
    + now apply cross_x_max.
    + now apply cross_x_min.
    + now apply cross_x_both.
    + now apply cross_glued_y.
    + now apply cross_y_max.
    + now apply cross_y_min.
    + now apply cross_y_both.
  - assert (a = 0 \/ a = 1) as [-> | ->] by lia.
    + assert (b = 1) as -> by lia. destruct Hc as [-> | ->]; inversion K; subst; try discriminate; inversion K'; subst; try discriminate.
      * now apply cross_y_min_along.
      * now apply cross_y_max_along.
    + assert (b = 0) as -> by lia. destruct Hc as [-> | ->]; inversion K; subst; try discriminate; inversion K'; subst; try discriminate.
      * now apply cross_x_min_along.
      * now apply cross_x_max_along.
Qed.

Ltac place := match goal with |- inside_cell _ _ => apply inside_by; [all_bez|tables] end.
Lemma cross2d_inside ce cl bw fh p s T D : cross2d_create ce cl bw fh (Some p) s = Made T D -> inside_cell 2 T.
Proof.
  intros H. apply cross2d_kinds in H. destruct H as (x0 & x1 & y0 & y1 & -> & Ox0 & Ox1 & Oy0 & Oy1 & K).
  inversion K; subst; clear K; oks; place.
Qed.
(** The shapes at sample parameters. *)
Definition alignedb (n m : nat) (degs : list nat) (cps : list (list Qc)) : bool :=
  forallb (fun j => forallb (fun c => forallb (fun ix =>
    if (c =? j)%nat then qltb 0 (edge degs cps j c ix) else if (j =? m)%nat then true else qeqb (edge degs cps j c ix) 0%Qc)
    (edges_ix degs j)) (seq 0 n)) (seq 0 n).
Definition shapes (n : nat) (T : tile) : list shape :=
  map (fun p => match filter (fun m => alignedb n m (degs_of p) (sp_cps p)) (seq 0 n) with
                | m :: _ => Aligned m
                | [] => if n =? 2 then Crossing else Upright
                end) T.
Ltac orients n sample := match goal with |- right_handed _ =>
  let shs := eval vm_compute in (shapes n sample) in apply (right_handed_by n _ shs); [all_bez|] end.
Ltac orient shs := match goal with |- right_handed _ => apply (right_handed_by 2 _ shs); [all_bez|reduce_tables; conjuncts; [..]] end.
Lemma cross2d_right ce cl bw fh p s T D : cross2d_create ce cl bw fh (Some p) s = Made T D -> right_handed T.
Proof.
  intros H. apply cross2d_kinds in H. destruct H as (x0 & x1 & y0 & y1 & -> & Ox0 & Ox1 & Oy0 & Oy1 & K).
  inversion K; subst; clear K; oks.
  - orient [Aligned 0; Aligned 0; Aligned 0; Aligned 1; Aligned 1]; arith.
  - orient [Aligned 0; Aligned 0; Aligned 0; Aligned 0]; arith.
  - orient [Aligned 0; Aligned 0; Aligned 0; Aligned 0]; arith.
  - orient [Aligned 1; Aligned 1; Aligned 1; Aligned 1]; arith.
  - orient [Aligned 1; Aligned 1; Aligned 1; Aligned 1]; arith.
Qed.
(** ** Covered sides *)
Lemma edge_covered T i k up a b y r0 r1 : (i <? length T) = true -> is_bez (nth i T none) -> 
  (a =? b) || negb (a <? 2) || negb (b <? 2) = false -> length y = 2 ->
  (k <? length (degs_of (nth i T none))) && same_list (remove_at k (degs_of (nth i T none))) [1] = true -> fcps (nth i T none) k up = [r0; r1] ->
  (nth a r0 0 = nth a y 0 /\ nth a r1 0 = nth a y 0 /\ nth b r0 0 < nth b r1 0 /\ nth b r0 0 <= nth b y 0 /\ nth b y 0 <= nth b r1 0)%Qc ->
  exists p u, In p T /\ in_box (para_dim p) u /\ forall c, c < 2 -> sp_value p u c = nth c y 0%Qc.
Proof.
  intros Hi Hb Hab Ly Hk Hf (E0 & E1 & H1 & H2 & H3). apply Nat.ltb_lt in Hi. rewrite !orb_false_iff in Hab.
  destruct Hab as ((Hab & Ha) & Hb2). apply Nat.eqb_neq in Hab. apply negb_false_iff in Ha, Hb2. apply Nat.ltb_lt in Ha, Hb2.
  destruct (edge_covers _ k up a b _ _ r0 r1 Hb Hk Hf E0 E1 H1 H2 H3) as (u & Hu & Va & Vb).
  exists (nth i T none), u. split; [now apply nth_In|]. split; auto.
  intros c Hc. destruct (Nat.eq_dec c a) as [->|]; auto. destruct (Nat.eq_dec c b) as [->|]; auto. lia.
Qed.
Lemma edge_covered_rev T i k up a b y r0 r1 : (i <? length T) = true -> is_bez (nth i T none) -> 
  (a =? b) || negb (a <? 2) || negb (b <? 2) = false -> length y = 2 ->
  (k <? length (degs_of (nth i T none))) && same_list (remove_at k (degs_of (nth i T none))) [1] = true -> fcps (nth i T none) k up = [r0; r1] ->
  (nth a r0 0 = nth a y 0 /\ nth a r1 0 = nth a y 0 /\ nth b r1 0 < nth b r0 0 /\ nth b r1 0 <= nth b y 0 /\ nth b y 0 <= nth b r0 0)%Qc ->
  exists p u, In p T /\ in_box (para_dim p) u /\ forall c, c < 2 -> sp_value p u c = nth c y 0%Qc.
Proof.
  intros Hi Hb Hab Ly Hk Hf (E0 & E1 & H1 & H2 & H3). apply Nat.ltb_lt in Hi. rewrite !orb_false_iff in Hab.
  destruct Hab as ((Hab & Ha) & Hb2). apply Nat.eqb_neq in Hab. apply negb_false_iff in Ha, Hb2. apply Nat.ltb_lt in Ha, Hb2.
  destruct (edge_covers_rev _ k up a b _ _ r0 r1 Hb Hk Hf E0 E1 H1 H2 H3) as (u & Hu & Va & Vb).
  exists (nth i T none), u. split; [now apply nth_In|]. split; auto.
  intros c Hc. destruct (Nat.eq_dec c a) as [->|]; auto. destruct (Nat.eq_dec c b) as [->|]; auto. lia.
Qed.
Ltac edge_rev i k up a b := eapply (edge_covered_rev _ i k up a b); [reflexivity|apply is_bez_bez|reflexivity|reflexivity|reflexivity|reflexivity|reduce_tables; conjuncts; arith].
Ltac edge i k up a b := eapply (edge_covered _ i k up a b); [reflexivity|apply is_bez_bez|reflexivity|reflexivity|reflexivity|reflexivity|reduce_tables; conjuncts; arith].
Lemma two_box y : in_box 2 y -> exists y0 y1, y = [y0; y1] /\ (0 <= y0 /\ y0 <= 1 /\ 0 <= y1 /\ y1 <= 1)%Qc.
Proof.
  intros [L B]. destruct y as [|y0 [|y1 [|? ?]]]; try discriminate L. exists y0, y1. inversion B as [|? ? ? B']; inversion B'; subst. intuition.
Qed.
Lemma cross2d_covers ce cl bw fh p s T D a x : cross2d_create ce cl bw fh (Some p) s = Made T D -> a < 2 -> closes a cl x -> covers_side 2 a x T.
Proof.
  intros H Ha C y Hy Ey. apply cross2d_kinds in H. destruct H as (x0 & x1 & y0 & y1 & -> & Ox0 & Ox1 & Oy0 & Oy1 & K).
  apply two_box in Hy. destruct Hy as (z0 & z1 & -> & Bz). destruct C as [[-> ->]|[-> ->]]; assert (a = 0 \/ a = 1) as [-> | ->] by lia; cbn [nth] in Ey; subst;
  inversion K; subst; try discriminate; oks.
  - destruct (Qclt_le_dec z1 bw); [edge 0 0 false 0 1|]. destruct (Qclt_le_dec z1 (1 - bw)%Qc); [edge 1 0 false 0 1|edge 2 0 false 0 1].
  - destruct (Qclt_le_dec z0 bw); [edge 0 1 false 1 0|]. destruct (Qclt_le_dec z0 (1 - bw)%Qc); [edge 1 1 false 1 0|edge 2 1 false 1 0].
  - destruct (Qclt_le_dec z1 bw); [edge 0 0 true 0 1|]. destruct (Qclt_le_dec z1 (1 - bw)%Qc); [edge 1 0 true 0 1|edge 2 0 true 0 1].
  - destruct (Qclt_le_dec z0 bw); [edge 0 1 true 1 0|]. destruct (Qclt_le_dec z0 (1 - bw)%Qc); [edge 1 1 true 1 0|edge 2 1 true 1 0].
Qed.
(** ** Derivatives *)
Definition splines_of (m : made) : option tile := match m with Made T _ => Some T | Raised _ => None end.
Lemma splines_of_made m T : splines_of m = Some T -> exists D, m = Made T D.
Proof. destruct m; [discriminate|]. intros H. inversion H. eauto. Qed.
Lemma column3 n s b : check_param_derivatives n 1 (Some s) = Some b -> exists ls, s = map (fun l => [l]) ls /\ length ls = n.
Proof.
  unfold check_param_derivatives. destruct (_ && _) eqn:E; [|discriminate]. intros _.
  apply andb_true_iff in E. destruct E as [L H]. apply Nat.eqb_eq in L.
  exists (map (fun r => hd [] r) s). rewrite map_map, map_length. split; auto.
  clear L. induction s as [|r s IH]; [reflexivity|]. cbn in H |- *. apply andb_true_iff in H. destruct H as [H1 H2].
  rewrite Nat.eqb_eq in H1. destruct r as [|x [|? ?]]; try discriminate H1. cbn. f_equal. auto.
Qed.
(** Derivatives listed by the loop. *)
Lemma rates_right dim make p s T f : (forall i, i < n_derivatives s -> changes_by dim make p (direction s i) T (f (slice s i))) ->
  right_rates dim make p s T (rates f (Some s)).
Proof.
  intros H. unfold rates. cbn [option_map]. eexists. split; [reflexivity|]. rewrite map_length, seq_length. split; auto.
  intros i Hi. rewrite nth_map_seq by auto. apply H; auto.
Qed.
Ltac moving := intros; conjuncts; reduce_tables; conjuncts; arith.
Lemma cross2d_changes ce cl bw fh p s T Ds : cross2d_create ce cl bw fh (Some p) (Some s) = Made T Ds ->
  right_rates 2 (fun p => splines_of (cross2d_create ce cl bw fh (Some p) None)) p s T Ds.
Proof.
  intros H. assert (S : exists b, check_param_derivatives 4 1 (Some s) = Some b).
  { clear - H. unfold cross2d_create in H. cbv zeta in H. guards H. eexists; reflexivity. }
  destruct S as (b & S). apply column3 in S. destruct S as (ls & -> & L).
  do 5 (destruct ls as [|? ls]; try discriminate L). clear L b.
  apply cross2d_inv in H. destruct H as (C & (x0 & x1 & y0 & y1 & -> & B) & M).
  assert (G : forall d0 d1 d2 d3 t T', splines_of (cross2d_create ce cl bw fh (Some (moved [[x0]; [x1]; [y0]; [y1]] [[d0]; [d1]; [d2]; [d3]] t)) None) = Some T' ->
    cross2d_made ce cl bw fh [[x0 + t * d0]; [x1 + t * d1]; [y0 + t * d2]; [y1 + t * d3]]%Qc None T' None).
  { intros d0 d1 d2 d3 t T' E. destruct (cross2d_create ce cl bw fh (Some (moved _ _ t)) None) eqn:F; [discriminate E|]. inversion E; subst.
    apply cross2d_inv in F. destruct F as (_ & _ & F). destruct cl; cbn [cross2d_made] in F |- *.
    - destruct F as (W & f & k & E1 & E2 & _). split; auto. exists f, k. auto.
    - destruct F as (F & _). split; auto. }
  destruct cl as [c|]; cbn [cross2d_made] in M.
  - destruct M as (W & f & k & E & -> & ->). apply rates_right. intros i Hi. 
    unfold direction, slice. cbn [map]. generalize (nth i l 0%Qc) (nth i l0 0%Qc) (nth i l1 0%Qc) (nth i l2 0%Qc). intros d0 d1 d2 d3. clear Hi i l l0 l1 l2 C B.
    unfold cross2d_closing in E.
    repeat match type of E with context [string_dec ?a ?b] => destruct (string_dec a b) as [->|?] end; try discriminate E; inversion E; subst f k;
    apply changes_affine; [all_bez|all_bez|reflexivity| |all_bez|all_bez|reflexivity| |all_bez|all_bez|reflexivity| |all_bez|all_bez|reflexivity|];
    intros t T' HT; apply G in HT; destruct HT as (_ & f & k & E' & -> & _); rewrite E in E' || (cbn in E'); cbn in E'; inversion E'; subst f k; clear;
    (split; [all_bez|reduce_tables; conjuncts; arith]).
  - destruct M as (-> & ->). apply rates_right. intros i Hi. 
    unfold direction, slice. cbn [map]. generalize (nth i l 0%Qc) (nth i l0 0%Qc) (nth i l1 0%Qc) (nth i l2 0%Qc). intros d0 d1 d2 d3. clear Hi i l l0 l1 l2 C B.
    apply changes_affine; [all_bez|all_bez|reflexivity|]. intros t T' HT. apply G in HT. destruct HT as (-> & _). clear.
    split; [all_bez|]. reduce_tables. conjuncts; try reflexivity; unfold Qcdiv; ring.
Qed.
Lemma row_params n p : check_params 1 n p = true -> exists xs, p = [xs] /\ length xs = n.
Proof.
  unfold check_params. rewrite andb_true_iff, Nat.eqb_eq. intros [L H]. destruct p as [|xs [|? ?]]; try discriminate L.
  exists xs. split; auto. cbn in H. rewrite andb_true_r in H. now apply Nat.eqb_eq.
Qed.
Lemma row_sens n s b : check_param_derivatives 1 n (Some s) = Some b -> exists ls, s = [ls] /\ length ls = n.
Proof.
  unfold check_param_derivatives. destruct (_ && _) eqn:E; [|discriminate]. intros _.
  apply andb_true_iff in E. destruct E as [L H]. apply Nat.eqb_eq in L. destruct s as [|xs [|? ?]]; try discriminate L.
  exists xs. split; auto. cbn in H. rewrite andb_true_r in H. now apply Nat.eqb_eq.
Qed.
Ltac flat := repeat match goal with H : _ /\ _ |- _ => destruct H end.
(** Products of positive numbers. *)
Ltac products := idtac; match goal with |- (?a < ?b)%Qc => relevant; unfold qc in *; qnra end.
