(** Proofs about InverseCross3D and how it fits to Cross3D. *)
From Coq Require Import String List Arith Lia ZArith QArith Qcanon Bool.
From Verif Require Import Base BaseQc S_Grid M_Grid S_Spline S_Value S_Deriv M_Core S_Integrate
  M_Tiles M_Tile2D M_Tile3D M_TileMake M_TileInverse S_Tiles S_TileFit P_Tiles P_Tile2D P_Tile3D P_TileCross3 P_TileTouch P_Value.
Import ListNotations.
Local Open Scope list_scope.
Local Open Scope nat_scope.

(** ** Surfaces of degrees one and two, as control points of degree two *)
Definition mid (r s : list Qc) : list Qc :=
  [qc 1 2 * (nth 0 r 0%Qc + nth 0 s 0%Qc); qc 1 2 * (nth 1 r 0%Qc + nth 1 s 0%Qc); qc 1 2 * (nth 2 r 0%Qc + nth 2 s 0%Qc)]%Qc.
Definition lift_row (d : nat) (l : list (list Qc)) : list (list Qc) :=
  match d, l with
  | 1, [a; b] => [a; mid a b; b]
  | _, _ => l
  end.
Definition lift9 (d0 d1 : nat) (c : list (list Qc)) : list (list Qc) :=
  let rows := map (fun j => lift_row d0 (firstn (d0 + 1) (skipn (j * (d0 + 1)) c))) (seq 0 (d1 + 1)) in
  match d1, rows with
  | 1, [a; b] => a ++ map (fun xy => mid (fst xy) (snd xy)) (combine a b) ++ b
  | _, _ => concat rows
  end.
Definition one_two (d : nat) : bool := (d =? 1) || (d =? 2).
Ltac expand := rewrite ?bez_value; unfold functional, baxes; cbn -[Qcplus Qcmult Qcminus bernstein qc mid]; unfold bernstein; cbn -[Qcplus Qcmult Qcminus inj qc mid];
  unfold coord; cbn -[Qcplus Qcmult Qcminus inj qc mid].
Lemma mid_nth r s c : c < 3 -> nth c (mid r s) 0%Qc = (qc 1 2 * (nth c r 0 + nth c s 0))%Qc.
Proof. intros H. destruct c as [|[|[|c]]]; [reflexivity..|lia]. Qed.
Lemma lift9_value d0 d1 cps s t c : one_two d0 = true -> one_two d1 = true -> length cps = (d0 + 1) * (d1 + 1) -> c < 3 ->
  sp_value (bez [2; 2] (lift9 d0 d1 cps)) [s; t] c = sp_value (bez [d0; d1] cps) [s; t] c.
Proof.
  intros H0 H1 L Hc.
  assert (h : (qc 1 2 = / (1 + 1))%Qc) by (apply Qc_is_canon; reflexivity).
  assert (i2 : inj 2 = (1 + 1)%Qc) by (apply Qc_is_canon; reflexivity).
  assert (E0 : d0 = 1 \/ d0 = 2) by (unfold one_two in H0; apply orb_true_iff in H0; rewrite !Nat.eqb_eq in H0; exact H0).
  assert (E1 : d1 = 1 \/ d1 = 2) by (unfold one_two in H1; apply orb_true_iff in H1; rewrite !Nat.eqb_eq in H1; exact H1).
  destruct E0 as [-> | ->], E1 as [-> | ->]; cbn [Nat.mul Nat.add] in L;
  repeat (destruct cps as [|? cps]; try discriminate L); cbn [lift9 lift_row Nat.mul Nat.add seq map firstn skipn combine app concat fst snd];
  [| | |reflexivity]; expand; rewrite ?mid_nth by auto; rewrite ?mid_nth by auto; rewrite ?inj_1, ?i2, h; field; discriminate.
Qed.
Definition lifted (p : spline) (k : nat) (up : bool) : list (list Qc) :=
  let ds := remove_at k (degs_of p) in lift9 (nth 0 ds 0) (nth 1 ds 0) (fcps p k up).
Lemma facet_lifted p k up v c : is_bez p -> length (degs_of p) = 3 -> forallb one_two (degs_of p) = true -> k < 3 -> in_box 2 v -> c < 3 ->
  facet_value p k up v c = sp_value (bez [2; 2] (lifted p k up)) v c.
Proof.
  intros B L D Hk [Lv Bv] Hc. transitivity (facet_value (bez (degs_of p) (sp_cps p)) k up v c); [now rewrite <- B|]. rewrite facet_bez by lia. fold (fcps p k up).
  assert (LF : length (fcps p k up) = netn (remove_at k (degs_of p))) by (apply length_facet_cps; lia).
  unfold lifted. destruct v as [|s [|t [|? ?]]]; try discriminate Lv.
  assert (R : exists d0 d1, remove_at k (degs_of p) = [d0; d1] /\ one_two d0 = true /\ one_two d1 = true).
  { destruct (degs_of p) as [|a [|b [|d [|? ?]]]]; try discriminate L. cbn [forallb] in D. rewrite !andb_true_iff in D.
    destruct k as [|[|[|k]]]; [| | |lia]; cbn; do 2 eexists; (split; [reflexivity|tauto]). }
  destruct R as (d0 & d1 & R & D0 & D1). rewrite R in *. cbn [nth]. symmetry. apply lift9_value; auto.
  rewrite LF. unfold netn, bres. cbn. lia.
Qed.
Definition rows_same (r s : list Qc) : Prop := (nth 0 r 0 = nth 0 s 0 /\ nth 1 r 0 = nth 1 s 0 /\ nth 2 r 0 = nth 2 s 0)%Qc.
Definition fits (T : list spline) (f : nat * nat * bool) (e : option nat) : Prop :=
  let '(i, k, up) := f in
  match e with
  | None => all_at k (bound up) (fcps (nth i T none) k up)
  | Some j => (j <? length T) && negb (j =? i) && (length (degs_of (nth i T none)) =? 3) && (length (degs_of (nth j T none)) =? 3) &&
      forallb one_two (degs_of (nth i T none)) && forallb one_two (degs_of (nth j T none)) &&
      (length (lifted (nth j T none) k (negb up)) =? 9) = true /\
      all_of2 rows_same (lifted (nth i T none) k up) (lifted (nth j T none) k (negb up))
  end.
Lemma in_facets_nth T i k up : i < length T -> k < para_dim (nth i T none) -> In (i, k, up) (facets T).
Proof.
  intros Hi Hk. unfold facets. apply in_flat_map. exists i. split; [apply in_seq; lia|].
  apply in_flat_map. exists k. split; [apply in_seq; unfold para_dim in Hk; lia|]. destruct up; cbn; auto.
Qed.
Lemma fitted_by T fs tab : Forall is_bez T -> facets T = fs -> Forall2 (fits T) fs tab -> fitted 3 T.
Proof.
  intros B <- F i k up Hi Hk. unfold patch in *. fold none in *. rewrite Forall_forall in B.
  destruct (Forall2_in_l _ _ _ _ F (in_facets_nth T i k up Hi Hk)) as ([j|] & _ & R); unfold fits in R.
  - right. destruct R as (R & M). rewrite !andb_true_iff, !Nat.eqb_eq, negb_true_iff, Nat.eqb_neq, Nat.ltb_lt in R.
    destruct R as ((((((Hj & N) & Li) & Lj) & Di) & Dj) & L9). exists j. split; auto. split; auto.
    rewrite !para_dim_degs in *. split; [congruence|]. rewrite Li in *. intros v c Hv Hc. cbn [Nat.sub] in Hv.
    assert (Bi : is_bez (nth i T none)) by (apply B; now apply nth_In).
    assert (Bj : is_bez (nth j T none)) by (apply B; now apply nth_In).
    rewrite !facet_lifted by auto.
    rewrite (rows_shift 3 3 [2; 2] (lifted (nth i T none) k up) (lifted (nth j T none) k (negb up))); auto.
    + replace (c =? 3) with false by (symmetry; apply Nat.eqb_neq; lia). ring.
    + apply Hv.
    + apply all_of2_Forall2 in M. clear - M. induction M; constructor; auto.
      destruct H as (H0 & H1 & H2). unfold rows_match. cbn. rewrite H0, H1, H2. repeat split; ring.
  - left. apply on_plane_all; auto. apply B. now apply nth_In.
Qed.
Definition fit_table (T : list spline) : list (option nat) :=
  map (fun f => let '(i, k, up) := f in
    if forallb (fun r => qeqb (nth k r 0%Qc) (bound up)) (fcps (nth i T none) k up) then None
    else match filter (fun j => negb (j =? i) &&
      forallb (fun rs => forallb (fun c => qeqb (nth c (fst rs) 0) (nth c (snd rs) 0))%Qc (seq 0 3))
        (combine (lifted (nth i T none) k up) (lifted (nth j T none) k (negb up)))) (seq 0 (length T)) with
      | j :: _ => Some j | [] => None end) (facets T).
Ltac one_fit := reduce_tables; repeat match goal with |- _ /\ _ => split | |- True => exact I end; first [reflexivity | ring | arith].
Ltac fit S :=
  match goal with |- fitted 3 ?T =>
    let fs := eval vm_compute in (facets S) in
    let tb := eval vm_compute in (fit_table S) in
    apply (fitted_by T fs tb); [all_bez|reflexivity|];
    repeat (apply Forall2_cons; [one_fit|]); apply Forall2_nil
  end.

(** ** Shapes of the tile *)
Definition inv3 (sep c x0 x1 y0 y1 z0 z1 a0 a1 b0 b1 d0 d1 : Qc) : tile :=
  inverse_splines sep c (qc 1 2 * (qc 1 2 + c))%Qc (qc 1 2 - qc 2 1 * (qc 1 2 - sep))%Qc x0 x1 y0 y1 z0 z1 a0 a1 b0 b1 d0 d1.
Definition inv_bottom (bw fh sep b : Qc) : tile := inverse_closing_value inverse_z_min bw fh sep b.
Definition inv_top (bw fh sep b : Qc) : tile := inverse_closing_value inverse_z_max bw fh sep b.
