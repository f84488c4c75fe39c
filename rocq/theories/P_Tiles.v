(** Bezier patches of tiles: values from control points, facets, corners,
    Jacobian determinants. *)
From Coq Require Import List Arith Lia ZArith QArith Qcanon Bool Permutation.
From Verif Require Import Base BaseRadix BaseQc S_Grid M_Grid P_Grid S_Spline S_Value P_Spline P_Value P_Bezier P_Reparam
  S_Deriv P_Deriv M_Core M_Extract P_Extract S_Integrate M_Tiles S_Tiles.
Import ListNotations.
Local Open Scope list_scope.
Local Open Scope nat_scope.

Definition baxes (degs : list nat) : list paxis := map BezierAxis degs.
Definition bres (degs : list nat) : list nat := map (fun p => p + 1) degs.
Lemma bres_axes degs : map ax_n (baxes degs) = bres degs.
Proof. unfold baxes, bres. rewrite map_map. reflexivity. Qed.
Definition netn (degs : list nat) : nat := prodn (bres degs).

Definition coord (cps : list (list Qc)) (d g : nat) : Qc := nth d (nth g cps []) 0%Qc.
Lemma bez_value degs cps u d : sp_value (bez degs cps) u d = functional (baxes degs) u (coord cps d).
Proof. rewrite sp_value_functional. reflexivity. Qed.

Section weights.
  Variables (degs : list nat) (u : list Qc).
  Hypothesis L : length u = length degs.
  Let F := functional (baxes degs) u.
  Lemma La : length u = length (baxes degs). Proof. unfold baxes. now rewrite map_length. Qed.
  Lemma F_ext f f' : (forall g, (g < netn degs)%nat -> f g = f' g) -> F f = F f'.
  Proof. intros H. apply functional_ext; [apply La|]. rewrite bres_axes. exact H. Qed.
  Lemma F_add f f' : F (fun g => f g + f' g)%Qc = (F f + F f')%Qc.
  Proof. unfold F, functional. apply (tensor_add _ (fun ix => f (flat_id _ ix)) (fun ix => f' (flat_id _ ix))). Qed.
  Lemma F_scale a f : F (fun g => a * f g)%Qc = (a * F f)%Qc.
  Proof. unfold F, functional. apply (tensor_mul_l _ a (fun ix => f (flat_id _ ix))). Qed.
  Lemma F_const x : F (fun _ => x) = x.
  Proof.
    transitivity (x * F (fun _ => 1))%Qc.
    - rewrite <- F_scale. apply F_ext. intros. ring.
    - transitivity (x * 1)%Qc; [|ring]. f_equal. unfold F, functional. apply tensor_one.
      unfold sp_basis. rewrite Forall_map. apply Forall_forall. intros [a y] Hin. cbn.
      apply in_combine_l in Hin. unfold baxes in Hin. apply in_map_iff in Hin. destruct Hin as (p & <- & _).
      apply bernstein_sum.
  Qed.
  Hypothesis B : Forall (fun x => 0 <= x /\ x <= 1)%Qc u.
  Lemma F_nonneg f : (forall g, (g < netn degs)%nat -> 0 <= f g)%Qc -> (0 <= F f)%Qc.
  Proof.
    intros H. rewrite (F_ext f (fun g => if g <? netn degs then f g else 0%Qc)).
    2:{ intros g Hg. destruct (Nat.ltb_spec g (netn degs)); [auto|lia]. }
    unfold F, functional. apply tensor_nonneg.
    - unfold sp_basis. rewrite Forall_map. apply Forall_forall. intros [a y] Hin i Hi. cbn.
      pose proof (in_combine_l _ _ _ _ Hin) as H1. pose proof (in_combine_r _ _ _ _ Hin) as H2.
      unfold baxes in H1. apply in_map_iff in H1. destruct H1 as (p & <- & _).
      rewrite Forall_forall in B. destruct (B _ H2). now apply bernstein_nonneg.
    - intros ix _. destruct (Nat.ltb_spec (flat_id (map ax_n (baxes degs)) ix) (netn degs)); [auto|apply Qcle_refl].
  Qed.
  Lemma F_le f f' : (forall g, (g < netn degs)%nat -> f g <= f' g)%Qc -> (F f <= F f')%Qc.
  Proof.
    intros H. assert (X : (0 <= F (fun g => f' g + (- (1)) * f g))%Qc).
    { apply F_nonneg. intros g Hg. specialize (H g Hg). clear -H. qlra. }
    rewrite F_add, F_scale in X. clear -X. qlra.
  Qed.
  Lemma F_pos f : (forall g, (g < netn degs)%nat -> 0 < f g)%Qc -> (0 < F f)%Qc.
  Proof.
    intros H.
    assert (E : exists e, (0 < e)%Qc /\ forall g, g < netn degs -> (e <= f g)%Qc).
    { revert H. generalize (netn degs) as n. clear. induction n; intros H.
      - exists 1%Qc. split; [reflexivity|]. intros; lia.
      - destruct IHn as (e & He & Hf). { intros g Hg. apply H. lia. }
        destruct (Qclt_le_dec e (f n)) as [Hl|Hl].
        + exists e. split; auto. intros g Hg. destruct (Nat.eq_dec g n) as [->|]; [now apply Qclt_le_weak|apply Hf; lia].
        + exists (f n). split; [apply H; lia|]. intros g Hg. destruct (Nat.eq_dec g n) as [->|]; [apply Qcle_refl|].
          eapply Qcle_trans; [exact Hl|apply Hf; lia]. }
    destruct E as (e & He & Hf). eapply Qclt_le_trans; [exact He|]. rewrite <- (F_const e). now apply F_le.
  Qed.
End weights.

(** ** Values between bounds *)
Lemma bez_between degs cps u d lo hi :
  length cps = netn degs -> in_box (length degs) u ->
  Forall (fun p => lo <= nth d p 0 /\ nth d p 0 <= hi)%Qc cps ->
  (lo <= sp_value (bez degs cps) u d /\ sp_value (bez degs cps) u d <= hi)%Qc.
Proof.
  intros Lc [Lu B] H. rewrite bez_value. rewrite Forall_forall in H.
  assert (X : forall g, (g < netn degs)%nat -> (lo <= coord cps d g /\ coord cps d g <= hi)%Qc).
  { intros g Hg. unfold coord. apply H. apply nth_In. lia. }
  split.
  - rewrite <- (F_const degs u Lu lo) at 1. apply F_le; auto. intros g Hg. apply (X g Hg).
  - rewrite <- (F_const degs u Lu hi) at 1. apply F_le; auto. intros g Hg. apply (X g Hg).
Qed.

(** ** Affine dependence on a parameter *)
Lemma bez_affine degs c0 c1 ct t u d :
  length u = length degs ->
  (forall g, (g < netn degs)%nat -> coord ct d g = coord c0 d g + t * coord c1 d g)%Qc ->
  sp_value (bez degs ct) u d = (sp_value (bez degs c0) u d + t * sp_value (bez degs c1) u d)%Qc.
Proof.
  intros L H. rewrite !bez_value, <- F_scale, <- F_add by auto. apply F_ext; auto.
Qed.

(** ** Corners *)
Fixpoint corner (degs : list nat) (bits : list bool) : list nat :=
  match degs, bits with
  | p :: degs, b :: bits => (if b then p else 0) :: corner degs bits
  | _, _ => []
  end.
Definition corner_id (degs : list nat) (bits : list bool) : nat := flat_id (bres degs) (corner degs bits).
Lemma tensor_corner degs : forall bits c, length bits = length degs ->
  tensor (sp_basis (baxes degs) (map bound bits)) c = c (corner degs bits).
Proof.
  induction degs as [|p degs IH]; intros [|b bits] c L; try discriminate L; [reflexivity|].
  cbn [baxes map].
  unfold sp_basis. cbn [combine map tensor fst snd ax_n ax_fun].
  fold (baxes degs). fold (sp_basis (baxes degs) (map bound bits)).
  cbn [corner]. rewrite (qsum_single _ (p + 1) (if b then p else 0)).
  - rewrite IH by (now injection L). destruct b; cbn [bound].
    + rewrite bernstein_1, Nat.eqb_refl by lia. ring.
    + rewrite bernstein_0, Nat.eqb_refl. ring.
  - destruct b; lia.
  - intros i Hi Hne. destruct b; cbn [bound].
    + rewrite bernstein_1 by lia. destruct (Nat.eqb_spec i p); [easy|ring].
    + rewrite bernstein_0. destruct (Nat.eqb_spec i 0); [easy|ring].
Qed.
Lemma bez_corner degs cps bits d : length bits = length degs ->
  sp_value (bez degs cps) (map bound bits) d = coord cps d (corner_id degs bits).
Proof.
  intros L. rewrite bez_value. unfold functional. rewrite tensor_corner by auto. unfold corner_id. now rewrite bres_axes.
Qed.

(** ** Facets *)
Definition facet_ids (degs : list nat) (k : nat) (up : bool) : list nat :=
  ids_on_hyper_plane (bres degs) k (if up then nth k degs 0 else 0).
Definition facet_cps (degs : list nat) (cps : list (list Qc)) (k : nat) (up : bool) : list (list Qc) :=
  map (fun i => nth i cps []) (facet_ids degs k up).
Lemma bres_pos degs : Forall (fun r => 0 < r) (bres degs).
Proof. unfold bres. rewrite Forall_map. apply Forall_forall. intros. lia. Qed.
Lemma split_at {A} k (l : list A) d : k < length l -> l = firstn k l ++ nth k l d :: skipn (S k) l.
Proof.
  revert k. induction l; intros k H; cbn in H; [lia|]. destruct k; [reflexivity|].
  cbn [firstn skipn nth app]. f_equal. apply IHl. lia.
Qed.
Lemma facet_bez degs cps k up v d :
  k < length degs -> length v = length degs - 1 ->
  facet_value (bez degs cps) k up v d = sp_value (bez (remove_at k degs) (facet_cps degs cps k up)) v d.
Proof.
  intros Hk Lv. unfold facet_value. rewrite !bez_value.
  set (pre := firstn k degs). set (post := skipn (S k) degs). set (p := nth k degs 0).
  assert (E : degs = pre ++ p :: post) by (apply split_at; auto).
  assert (Lp : length pre = k) by (unfold pre; rewrite firstn_length; lia).
  assert (Lq : length post = length degs - S k) by (unfold post; now rewrite skipn_length).
  set (v1 := firstn k v). set (v2 := skipn k v).
  assert (Ev : v = v1 ++ v2) by (symmetry; apply firstn_skipn).
  assert (L1 : length v1 = k) by (unfold v1; rewrite firstn_length; lia).
  assert (L2 : length v2 = length degs - S k) by (unfold v2; rewrite skipn_length; lia).
  assert (Ei : insert_at k (bound up) v = v1 ++ bound up :: v2).
  { rewrite Ev. rewrite <- L1 at 1. apply insert_at_app. }
  assert (Er : remove_at k degs = pre ++ post).
  { rewrite E at 1. rewrite <- Lp at 1. apply remove_at_app. }
  assert (Eids : facet_ids degs k up = ids_on_hyper_plane (bres pre ++ (p + 1) :: bres post) (length (bres pre)) (if up then p else 0)).
  { unfold facet_ids. fold p. f_equal; [|unfold bres; rewrite map_length; auto]. rewrite E at 1. unfold bres. now rewrite map_app. }
  rewrite Ei, Er, Ev. unfold baxes. rewrite E at 1. rewrite !map_app. cbn [map].
  set (ids := facet_ids degs k up) in *.
  rewrite <- (functional_slice (map BezierAxis pre) (BezierAxis p) (map BezierAxis post) v1 v2 (bound up)
     (if up then p else 0) (fun g => nth g ids 0)).
  - apply functional_ext.
    + rewrite !app_length, !map_length. lia.
    + intros g Hg. unfold coord, facet_cps. fold ids. f_equal.
      assert (Lg : g < length ids).
      { rewrite Eids, length_ids_on_plane. rewrite map_app in Hg.
        fold (baxes pre) in Hg. fold (baxes post) in Hg. rewrite !bres_axes in Hg. exact Hg. }
      symmetry. rewrite (nth_indep _ [] (nth 0 cps [])) by (now rewrite map_length).
      exact (map_nth (fun i => nth i cps []) ids 0 g).
  - rewrite map_length. lia.
  - rewrite map_length. lia.
  - cbn. destruct up; lia.
  - intros i Hi. cbn in Hi |- *. destruct up; cbn [bound]; [apply bernstein_1; lia|apply bernstein_0].
  - intros d1 d2 V1 V2. rewrite !map_app. cbn [map ax_n].
    fold (baxes pre) in *. fold (baxes post) in *. rewrite !bres_axes in *. rewrite Eids.
    apply nth_ids_on_plane; auto.
    assert (X := bres_pos degs). rewrite E in X. unfold bres in *. rewrite map_app in X. exact X.
Qed.

(** ** Tables of facets *)
Definition degree_of (a : paxis) : nat := match a with BezierAxis p => p | KnotAxis p _ => p end.
Definition degs_of (p : spline) : list nat := map degree_of (sp_axes p).
Definition is_bez (p : spline) : Prop := p = bez (degs_of p) (sp_cps p).
Definition fcps (p : spline) (k : nat) (up : bool) : list (list Qc) := facet_cps (degs_of p) (sp_cps p) k up.
Lemma degs_bez degs cps : degs_of (bez degs cps) = degs.
Proof. unfold degs_of, bez. cbn. rewrite map_map. cbn. apply map_id. Qed.
Lemma is_bez_bez degs cps : is_bez (bez degs cps).
Proof. unfold is_bez. now rewrite degs_bez. Qed.
Lemma para_dim_bez degs cps : para_dim (bez degs cps) = length degs.
Proof. unfold para_dim, bez. cbn. now rewrite map_length. Qed.
Lemma para_dim_degs p : para_dim p = length (degs_of p).
Proof. unfold para_dim, degs_of. now rewrite map_length. Qed.

(** Conjunctions over lists that reduce to their parts. *)
Fixpoint all_of {A} (P : A -> Prop) (l : list A) : Prop := match l with [] => True | x :: l => P x /\ all_of P l end.
Fixpoint all_of2 {A B} (P : A -> B -> Prop) (l : list A) (m : list B) : Prop :=
  match l, m with
  | [], [] => True
  | x :: l, y :: m => P x y /\ all_of2 P l m
  | _, _ => False
  end.
Lemma all_of_Forall {A} (P : A -> Prop) l : all_of P l -> Forall P l.
Proof. induction l; intros H; constructor; try apply H. apply IHl. apply H. Qed.
Lemma all_of2_Forall2 {A B} (P : A -> B -> Prop) l : forall m, all_of2 P l m -> Forall2 P l m.
Proof. induction l; intros [|y m] H; cbn in H; try contradiction; constructor; try apply H. apply IHl. apply H. Qed.
Fixpoint same_list (l m : list nat) : bool :=
  match l, m with
  | [], [] => true
  | x :: l, y :: m => (x =? y) && same_list l m
  | _, _ => false
  end.
Lemma same_list_eq l : forall m, same_list l m = true -> l = m.
Proof.
  induction l; intros [|y m] H; cbn in H; try discriminate; auto. apply andb_true_iff in H. destruct H as [H1 H2].
  apply Nat.eqb_eq in H1. subst. f_equal. auto.
Qed.
Definition rows_match (dim a : nat) (r s : list Qc) : Prop :=
  all_of (fun c => nth c r 0 = nth c s 0 + (if (c =? a)%nat then 1 else 0))%Qc (seq 0 dim).
Definition all_at (a : nat) (x : Qc) (rs : list (list Qc)) : Prop := all_of (fun r => nth a r 0%Qc = x) rs.
Definition facet_match (dim a : nat) (p : spline) (k : nat) (up : bool) (q : spline) (l : nat) (uq r : bool) : Prop :=
  (l <? length (degs_of q)) && same_list (remove_at k (degs_of p)) (remove_at l (degs_of q)) &&
    (length (degs_of p) =? length (degs_of q)) && (if r then length (degs_of p) =? 2 else true) = true /\
  all_at a 1 (fcps p k up) /\ all_of2 (rows_match dim a) (fcps p k up) (if r then rev (fcps q l uq) else fcps q l uq).

Lemma nth_map_seq {A} (f : nat -> A) n k d : k < n -> nth k (map f (seq 0 n)) d = f k.
Proof.
  intros H. rewrite (nth_indep _ d (f 0)) by (rewrite map_length, seq_length; lia).
  rewrite map_nth, seq_nth by lia. reflexivity.
Qed.
Lemma length_facet_cps degs cps k up : k < length degs -> length (facet_cps degs cps k up) = netn (remove_at k degs).
Proof.
  intros Hk. unfold facet_cps. rewrite map_length. unfold facet_ids, netn.
  set (p := nth k degs 0). assert (E : degs = firstn k degs ++ p :: skipn (S k) degs) by (apply split_at; auto).
  assert (Lp : length (firstn k degs) = k) by (rewrite firstn_length; lia).
  set (pre := firstn k degs) in *. set (post := skipn (S k) degs) in *. clearbody pre post. clearbody p. subst degs.
  rewrite <- Lp. rewrite remove_at_app. unfold bres. rewrite !map_app. cbn [map].
  rewrite <- (map_length (fun p => p + 1) pre) at 1. apply length_ids_on_plane.
Qed.
Lemma length_remove_at {A} k (l : list A) : k < length l -> length (remove_at k l) = length l - 1.
Proof.
  intros H. unfold remove_at. rewrite app_length, firstn_length, skipn_length. lia.
Qed.
Lemma on_plane_all p k up a x : is_bez p -> k < para_dim p -> all_at a x (fcps p k up) -> on_plane p k up a x.
Proof.
  intros Hb Hk H v Hv. rewrite para_dim_degs in *. rewrite Hb.
  rewrite facet_bez; [|auto|apply Hv].
  assert (X : (x <= sp_value (bez (remove_at k (degs_of p)) (fcps p k up)) v a /\
               sp_value (bez (remove_at k (degs_of p)) (fcps p k up)) v a <= x)%Qc).
  { apply bez_between.
    - apply length_facet_cps; auto.
    - rewrite length_remove_at; auto.
    - eapply Forall_impl; [|exact (all_of_Forall _ _ H)]. intros r ->. split; apply Qcle_refl. }
  destruct X. apply Qcle_antisym; auto.
Qed.
Lemma on_plane_corner p k bits a x : is_bez p -> k < para_dim p -> length bits = para_dim p ->
  on_plane p k (nth k bits false) a x -> coord (sp_cps p) a (corner_id (degs_of p) bits) = x.
Proof.
  intros Hb Hk L H. rewrite para_dim_degs in *.
  rewrite <- bez_corner by auto. rewrite <- Hb.
  rewrite <- (H (map bound (remove_at k bits))).
  - unfold facet_value. f_equal.
    rewrite (split_at k bits false) at 1 by lia.
    assert (Lf : length (firstn k bits) = k) by (rewrite firstn_length; lia).
    unfold remove_at. rewrite !map_app. cbn [map].
    replace k with (length (map bound (firstn k bits))) at 4 by (rewrite map_length; auto).
    symmetry. apply insert_at_app.
  - rewrite para_dim_degs. split; [rewrite map_length, length_remove_at by lia; lia|].
    rewrite Forall_map. apply Forall_forall. intros [|] _; cbn; split; discriminate.
Qed.
(** A patch with its parameter reversed. *)
Lemma bez_rev p cps t c : length cps = p + 1 -> sp_value (bez [p] (rev cps)) [t] c = sp_value (bez [p] cps) [(1 - t)%Qc] c.
Proof.
  intros L. rewrite !bez_value. unfold functional, baxes. cbn [map sp_basis combine tensor fst snd ax_n ax_fun].
  rewrite qsum_rev_seq. apply qsum_ext. intros i Hi. apply in_seq in Hi. replace (p + 1 - 1 - i) with (p - i) by lia.
  rewrite (bernstein_sym p (p - i) t) by lia. replace (p - (p - i)) with i by lia. f_equal.
  unfold coord, flat_id. cbn. f_equal. rewrite !Nat.mul_0_r, !Nat.add_0_r || idtac.
  rewrite rev_nth by lia. f_equal. lia.
Qed.
Lemma flipped_none n : forall v, length v = n -> flipped (repeat false n) v = v.
Proof.
  induction n; intros [|x v] L; try discriminate L; [reflexivity|]. unfold flipped in *. cbn. f_equal. apply IHn. now injection L.
Qed.
Lemma rows_shift dim a degs c0 c1 v c :
  length v = length degs -> length c1 = netn degs -> Forall2 (rows_match dim a) c0 c1 -> c < dim ->
  sp_value (bez degs c0) v c = (sp_value (bez degs c1) v c + (if c =? a then 1 else 0))%Qc.
Proof.
  intros Lv L1 H Hc.
  rewrite (bez_affine _ c1 (map (fun _ => map (fun c => if c =? a then 1%Qc else 0%Qc) (seq 0 dim)) c1) _ 1%Qc v c Lv).
  - f_equal. rewrite Qcmult_1_l, bez_value. rewrite (F_ext _ _ Lv _ (fun _ => if c =? a then 1%Qc else 0%Qc)).
    + apply F_const; auto.
    + intros g Hg. unfold coord. rewrite <- L1 in Hg.
      rewrite (nth_indep _ [] (map (fun c => if c =? a then 1%Qc else 0%Qc) (seq 0 dim))) by (now rewrite map_length).
      rewrite (map_nth (fun _ : list Qc => map (fun c => if c =? a then 1%Qc else 0%Qc) (seq 0 dim)) c1 [] g).
      now rewrite nth_map_seq.
  - intros g Hg. rewrite <- L1 in Hg.
    unfold coord. rewrite (nth_indep (map _ _) [] (map (fun c => if c =? a then 1%Qc else 0%Qc) (seq 0 dim))) by (now rewrite map_length).
    rewrite (map_nth (fun _ : list Qc => map (fun c => if c =? a then 1%Qc else 0%Qc) (seq 0 dim)) c1 [] g).
    rewrite nth_map_seq by auto.
    assert (X : rows_match dim a (nth g c0 []) (nth g c1 [])).
    { clear - H Hg. revert g Hg. induction H; intros g Hg; cbn [length] in Hg; [lia|]. destruct g; [auto|]. apply IHForall2. lia. }
    apply all_of_Forall in X. rewrite Forall_forall in X. rewrite (X c) by (apply in_seq; lia). ring.
Qed.
Lemma facet_match_spec dim a p k up q l uq r :
  is_bez p -> is_bez q -> k < para_dim p -> a < dim -> facet_match dim a p k up q l uq r ->
  l < para_dim q /\ on_plane p k up a 1 /\ on_plane q l uq a 0 /\ same_facet dim a p k up q l uq.
Proof.
  intros Bp Bq Hk Ha (Hd & H1 & H2). rewrite para_dim_degs in Hk. rewrite !andb_true_iff in Hd. destruct Hd as (((Hl & Er) & Ed) & H3).
  apply Nat.ltb_lt in Hl. apply same_list_eq in Er. apply Nat.eqb_eq in Ed. apply all_of2_Forall2 in H2.
  assert (Lq : length (fcps q l uq) = netn (remove_at l (degs_of q))) by (apply length_facet_cps; auto).
  assert (S : exists fl, length fl = para_dim p - 1 /\ (fl = repeat false (para_dim p - 1) \/ (fl = [true] /\ length (degs_of p) = 2)) /\
    forall v c, in_box (para_dim p - 1) v -> c < dim ->
    facet_value p k up v c = (facet_value q l uq (flipped fl v) c + (if c =? a then 1 else 0))%Qc).
  { rewrite para_dim_degs. destruct r.
    - apply Nat.eqb_eq in H3. exists [true]. split; [rewrite H3; reflexivity|]. split; [right; auto|].
      intros v c [Lv Bv] Hc. rewrite H3 in Lv. destruct v as [|t [|? ?]]; try discriminate Lv.
      rewrite Bp, Bq. rewrite !facet_bez; [|lia|cbn; lia|lia|cbn; lia].
      fold (fcps p k up). fold (fcps q l uq). rewrite Er.
      assert (Lr : length (remove_at l (degs_of q)) = 1) by (rewrite length_remove_at; lia).
      destruct (remove_at l (degs_of q)) as [|d [|? ?]]; try discriminate Lr.
      cbn [flipped combine map fst snd]. rewrite <- bez_rev.
      + apply rows_shift with (dim := dim); auto. rewrite rev_length. exact Lq.
      + rewrite Lq. unfold netn, bres. cbn [map prodn fold_right]. lia.
    - exists (repeat false (length (degs_of p) - 1)). split; [apply repeat_length|]. split; [left; auto|].
      intros v c [Lv Bv] Hc. rewrite flipped_none by auto.
      rewrite Bp, Bq. rewrite !facet_bez; [|lia|lia|lia|lia].
      fold (fcps p k up). fold (fcps q l uq). rewrite Er.
      apply rows_shift with (dim := dim); auto. rewrite length_remove_at; lia. }
  assert (P1 : on_plane p k up a 1) by (apply on_plane_all; auto; now rewrite para_dim_degs).
  destruct S as (fl & Lf & Cf & S).
  assert (Sd : para_dim p = para_dim q) by (now rewrite !para_dim_degs).
  rewrite para_dim_degs. repeat split; auto; [|exists fl; auto].
  intros v Hv. rewrite <- Sd in Hv.
  assert (V : exists w, in_box (para_dim p - 1) w /\ flipped fl w = v).
  { destruct Cf as [->|[-> L2]].
    - exists v. split; auto. apply flipped_none. apply Hv.
    - rewrite para_dim_degs, L2 in *. destruct Hv as [Lv Bv]. destruct v as [|t [|? ?]]; try discriminate Lv.
      exists [(1 - t)%Qc]. split.
      + split; [reflexivity|]. inversion Bv as [|? ? [? ?] ?]; subst. constructor; [|constructor]. split; clear - H H0; qlra.
      + cbn. f_equal. ring. }
  destruct V as (w & Hw & <-). specialize (S w a Hw Ha). rewrite Nat.eqb_refl in S. rewrite (P1 w Hw) in S. clear - S. qlra.
Qed.

Inductive entry := Contact (j l : nat) (uq r : bool) | Away (bits : list bool).
Definition none : spline := Spl [] [] None.
Definition facets (T : list spline) : list (nat * nat * bool) :=
  flat_map (fun i => flat_map (fun k => [(i, k, false); (i, k, true)]) (seq 0 (length (sp_axes (nth i T none))))) (seq 0 (length T)).
Definition away (T : list spline) (a : nat) (x : Qc) (i k : nat) (up : bool) (bits : list bool) : Prop :=
  (length bits =? length (sp_axes (nth i T none))) && Bool.eqb (nth k bits false) up = true /\
  coord (sp_cps (nth i T none)) a (corner_id (degs_of (nth i T none)) bits) <> x.
Definition forward (dim a : nat) (A B : list spline) (f : nat * nat * bool) (e : entry) : Prop :=
  let '(i, k, up) := f in
  match e with
  | Contact j l uq r => (j <? length B) = true /\ facet_match dim a (nth i A none) k up (nth j B none) l uq r
  | Away bits => away A a 1 i k up bits
  end.
Definition backward (dim a : nat) (A B : list spline) (f : nat * nat * bool) (e : entry) : Prop :=
  let '(j, l, uq) := f in
  match e with
  | Contact i k up r => (i <? length A) && (k <? length (sp_axes (nth i A none))) = true /\ facet_match dim a (nth i A none) k up (nth j B none) l uq r
  | Away bits => away B a 0 j l uq bits
  end.
Lemma in_facets T p k : In p T -> k < para_dim p -> exists i, i < length T /\ nth i T none = p /\ forall up, In (i, k, up) (facets T).
Proof.
  intros Hp Hk. destruct (In_nth _ _ none Hp) as (i & Hi & E). exists i. repeat split; auto.
  intros up. unfold facets. apply in_flat_map. exists i. split; [apply in_seq; lia|]. rewrite E.
  apply in_flat_map. exists k. split; [apply in_seq; unfold para_dim in Hk; lia|]. destruct up; cbn; auto.
Qed.
Lemma Forall2_in_l {A B} (R : A -> B -> Prop) l m x : Forall2 R l m -> In x l -> exists y, In y m /\ R x y.
Proof.
  induction 1; intros H1; [destruct H1|]. destruct H1 as [->|H1]; [exists y; cbn; auto|].
  destruct (IHForall2 H1) as (z & ? & ?). exists z. cbn. auto.
Qed.
Lemma glued_by_tables dim a A B tf tb :
  a < dim -> Forall is_bez A -> Forall is_bez B ->
  all_of2 (forward dim a A B) (facets A) tf -> all_of2 (backward dim a A B) (facets B) tb -> glued dim a A B.
Proof.
  intros Ha BA BB Hf Hb. apply all_of2_Forall2 in Hf, Hb. rewrite Forall_forall in BA, BB. split.
  - intros p k up Hp Hk On. destruct (in_facets _ _ _ Hp Hk) as (i & Hi & E & Hin).
    destruct (Forall2_in_l _ _ _ _ Hf (Hin up)) as ([j l uq r|bits] & _ & R); cbn in R.
    + destruct R as (Hj & M). apply Nat.ltb_lt in Hj. rewrite E in M. pose proof (nth_In B none Hj) as Iq.
      destruct (facet_match_spec _ _ _ _ _ _ _ _ _ (BA _ Hp) (BB _ Iq) Hk Ha M) as (? & ? & ? & ?).
      exists (nth j B none), l, uq. auto.
    + exfalso. destruct R as (L & N). apply andb_true_iff in L. destruct L as [L Eb]. apply Nat.eqb_eq in L. apply eqb_prop in Eb. rewrite E in *. apply N. apply (on_plane_corner p k); auto. now rewrite Eb.
  - intros q l uq Hq Hl On. destruct (in_facets _ _ _ Hq Hl) as (j & Hj & E & Hin).
    destruct (Forall2_in_l _ _ _ _ Hb (Hin uq)) as ([i k up r|bits] & _ & R); cbn in R.
    + destruct R as (Hi & M). apply andb_true_iff in Hi. destruct Hi as [Hi Hk]. apply Nat.ltb_lt in Hi, Hk. rewrite E in M. pose proof (nth_In A none Hi) as Ip.
      destruct (facet_match_spec _ _ _ _ _ _ _ _ _ (BA _ Ip) (BB _ Hq) Hk Ha M) as (? & ? & ? & ?).
      exists (nth i A none), k, up. auto.
    + exfalso. destruct R as (L & N). apply andb_true_iff in L. destruct L as [L Eb]. apply Nat.eqb_eq in L. apply eqb_prop in Eb. rewrite E in *. apply N. apply (on_plane_corner q l); auto. now rewrite Eb.
Qed.

(** Tables found at sample parameters. *)
Definition facet_matchb (dim a : nat) (p : spline) (k : nat) (up : bool) (q : spline) (l : nat) (uq r : bool) : bool :=
  forallb (fun r => qeqb (nth a r 0%Qc) 1) (fcps p k up) && (length (fcps p k up) =? length (fcps q l uq)) &&
  forallb (fun rs => forallb (fun c => qeqb (nth c (fst rs) 0) (nth c (snd rs) 0 + (if (c =? a)%nat then 1 else 0)))%Qc (seq 0 dim))
    (combine (fcps p k up) (if r then rev (fcps q l uq) else fcps q l uq)).
Fixpoint all_bits (n : nat) : list (list bool) :=
  match n with O => [[]] | S n => flat_map (fun b => [false :: b; true :: b]) (all_bits n) end.
Definition find_away (p : spline) (k : nat) (up : bool) (a : nat) (x : Qc) : entry :=
  Away (hd [] (filter (fun bits => Bool.eqb (nth k bits false) up &&
          negb (qeqb (coord (sp_cps p) a (corner_id (degs_of p) bits)) x)) (all_bits (length (sp_axes p))))).
(** The facets of [T] in the plane. *)
Definition facets_at (a : nat) (x : Qc) (T : list spline) : list (nat * nat * bool) :=
  filter (fun f => let '(i, k, up) := f in forallb (fun r => qeqb (nth a r 0%Qc) x) (fcps (nth i T none) k up)) (facets T).
Definition both (l : list (nat * nat * bool)) : list (nat * nat * bool * bool) := map (fun f => (f, false)) l ++ map (fun f => (f, true)) l.
Definition ftable (dim a : nat) (A B : list spline) : list entry :=
  let near := both (facets_at a 0 B) in
  map (fun f => let '(i, k, up) := f in
    match filter (fun g => let '(j, l, uq, r) := g in facet_matchb dim a (nth i A none) k up (nth j B none) l uq r) near with
    | (j, l, uq, r) :: _ => Contact j l uq r
    | [] => find_away (nth i A none) k up a 1
    end) (facets A).
Definition btable (dim a : nat) (A B : list spline) : list entry :=
  let near := both (facets_at a 1 A) in
  map (fun g => let '(j, l, uq) := g in
    match filter (fun f => let '(i, k, up, r) := f in facet_matchb dim a (nth i A none) k up (nth j B none) l uq r) near with
    | (i, k, up, r) :: _ => Contact i k up r
    | [] => find_away (nth j B none) l uq a 0
    end) (facets B).

(** ** Jacobian determinants *)
Lemma convex_pos n (w f : nat -> Qc) :
  (forall i, (i < n)%nat -> 0 <= w i)%Qc -> qsum (map w (seq 0 n)) = 1%Qc -> (forall i, (i < n)%nat -> 0 < f i)%Qc ->
  (0 < qsum (map (fun i => w i * f i)%Qc (seq 0 n)))%Qc.
Proof.
  intros Hw Hs Hf.
  assert (E : exists e, (0 < e)%Qc /\ forall g, g < n -> (e <= f g)%Qc).
  { clear -Hf. induction n.
    - exists 1%Qc. split; [reflexivity|]. intros; lia.
    - destruct IHn as (e & He & H). { intros g Hg. apply Hf. lia. }
      destruct (Qclt_le_dec e (f n)) as [Hl|Hl].
      + exists e. split; auto. intros g Hg. destruct (Nat.eq_dec g n) as [->|]; [now apply Qclt_le_weak|apply H; lia].
      + exists (f n). split; [apply Hf; lia|]. intros g Hg. destruct (Nat.eq_dec g n) as [->|]; [apply Qcle_refl|].
        eapply Qcle_trans; [exact Hl|apply H; lia]. }
  destruct E as (e & He & Hfe).
  assert (X : (0 <= qsum (map (fun i => w i * (f i + (- (1)) * e)) (seq 0 n)))%Qc).
  { apply qsum_nonneg. intros i Hi. apply in_seq in Hi. specialize (Hfe i ltac:(lia)). apply Qc_mul_nonneg; [apply Hw; lia|]. clear - Hfe. qlra. }
  assert (Y : qsum (map (fun i => w i * (f i + (- (1)) * e))%Qc (seq 0 n)) = (qsum (map (fun i => w i * f i) (seq 0 n)) - e)%Qc).
  { transitivity (qsum (map (fun i => w i * f i + (- e) * w i)%Qc (seq 0 n))).
    - apply qsum_ext. intros. ring.
    - rewrite qsum_map_add, qsum_map_mul_l, Hs. ring. }
  rewrite Y in X. clear -X He. qlra.
Qed.
Lemma tensor_pos ws c :
  Forall (fun a => (forall i, (i < fst a)%nat -> 0 <= snd a i) /\ qsum (map (snd a) (seq 0 (fst a))) = 1)%Qc ws ->
  (forall ix, valid_digits (map fst ws) ix -> 0 < c ix)%Qc -> (0 < tensor ws c)%Qc.
Proof.
  intros H. revert c. induction H as [|[n w] ws [H1 H2] HF IH]; intros c Hc; cbn [tensor].
  - apply Hc. constructor.
  - apply (convex_pos n w (fun i => tensor ws (fun ix => c (i :: ix)))); auto.
    intros i Hi. apply IH. intros ix V. apply Hc. constructor; auto.
Qed.
Lemma basis_weights degs u : Forall (fun x => 0 <= x /\ x <= 1)%Qc u ->
  Forall (fun a => (forall i, (i < fst a)%nat -> 0 <= snd a i) /\ qsum (map (snd a) (seq 0 (fst a))) = 1)%Qc (sp_basis (baxes degs) u).
Proof.
  intros B. unfold sp_basis. rewrite Forall_map. apply Forall_forall. intros [a y] Hin. cbn [fst snd].
  pose proof (in_combine_l _ _ _ _ Hin) as H1. pose proof (in_combine_r _ _ _ _ Hin) as H2.
  unfold baxes in H1. apply in_map_iff in H1. destruct H1 as (p & <- & _). rewrite Forall_forall in B. destruct (B _ H2).
  split; [intros; now apply bernstein_nonneg|apply bernstein_sum].
Qed.

Definition lower (j : nat) (degs : list nat) : list nat := firstn j degs ++ (nth j degs 0 - 1) :: skipn (S j) degs.
Definition bump (j : nat) (ix : list nat) : list nat := firstn j ix ++ S (nth j ix 0) :: skipn (S j) ix.
Lemma lowered_sum p (t : Qc) (G : nat -> Qc) : 1 <= p <= 3 ->
  qsum (map (fun i => dbernstein p i t * G i)%Qc (seq 0 (p + 1))) =
  (inj p * qsum (map (fun i => bernstein (p - 1) i t * (G (S i) - G i)) (seq 0 (p - 1 + 1))))%Qc.
Proof.
  intros H. assert (p = 1 \/ p = 2 \/ p = 3) as [->|[->| ->]] by lia;
  cbn -[inj]; unfold dbernstein, bernstein; cbn -[inj Qcmult Qcplus Qcminus Qcopp];
  rewrite ?inj_S, ?inj_0; ring.
Qed.
Lemma bez_deriv degs cps j u d :
  length u = length degs -> j < length degs -> 1 <= nth j degs 0 <= 3 ->
  sp_deriv (bez degs cps) j u d =
  (inj (nth j degs 0%nat) * tensor (sp_basis (baxes (lower j degs)) u)
     (fun ix => net (bres degs) cps d (bump j ix) - net (bres degs) cps d ix))%Qc.
Proof.
  intros L Hj Hp. unfold sp_deriv. cbn [sp_weights bez sp_axes sp_cps].
  replace (sp_res (bez degs cps)) with (bres degs) by (symmetry; apply bres_axes).
  fold (baxes degs). unfold baxes at 1. rewrite dbasis_split by (rewrite ?map_length; lia).
  rewrite (map_nth BezierAxis degs 0 j). cbn [ax_n ax_dfun].
  set (p := nth j degs 0) in *. set (N := net (bres degs) cps d).
  assert (Lj : length (firstn j degs) = j) by (rewrite firstn_length; lia).
  assert (Lb : length (sp_basis (firstn j (map BezierAxis degs)) (firstn j u)) = j).
  { unfold sp_basis. rewrite map_length, combine_length, !firstn_length, map_length. lia. }
  rewrite tensor_axis, Lb.
  rewrite (lowered_sum p (nth j u 0%Qc) (fun i => tensor _ (fun ix => N (firstn j ix ++ i :: skipn j ix)))) by auto.
  f_equal.
  replace (sp_basis (baxes (lower j degs)) u) with
    (sp_basis (firstn j (map BezierAxis degs)) (firstn j u) ++ (p - 1 + 1, ax_fun (BezierAxis (p - 1)) (nth j u 0%Qc))
       :: sp_basis (skipn (S j) (map BezierAxis degs)) (skipn (S j) u)).
  2:{ unfold sp_basis. rewrite (split_at j u 0%Qc) at 4 by lia.
      unfold baxes, lower. fold p. rewrite map_app. cbn [map].
      rewrite combine_app, map_app by (rewrite map_length, !firstn_length; lia). cbn [combine map fst snd ax_n].
      now rewrite firstn_map, skipn_map. }
  rewrite tensor_axis, Lb. apply qsum_ext. intros i Hi. cbn [ax_fun]. f_equal.
  transitivity (tensor (sp_basis (firstn j (map BezierAxis degs)) (firstn j u) ++ sp_basis (skipn (S j) (map BezierAxis degs)) (skipn (S j) u))
    (fun ix => N (firstn j ix ++ S i :: skipn j ix) + (- (1)) * N (firstn j ix ++ i :: skipn j ix))%Qc).
  - rewrite tensor_add, tensor_mul_l. ring.
  - apply tensor_ext_c. intros ix V. apply valid_length in V.
    rewrite map_length, app_length, Lb in V.
    assert (Li : length (firstn j ix) = j) by (rewrite firstn_length; lia).
    unfold bump. rewrite firstn_app, Li, Nat.sub_diag, firstn_O, app_nil_r, (firstn_all2 (firstn j ix)) by lia.
    rewrite app_nth2, Li, Nat.sub_diag by lia. cbn [nth].
    replace (skipn (S j) (firstn j ix ++ i :: skipn j ix)) with (skipn j ix)
      by (rewrite skipn_app, Li, (skipn_all2 (firstn j ix)) by lia; replace (S j - j) with 1 by lia; reflexivity). ring.
Qed.

(** Values of a Jacobian. *)
Lemma jacobian_bez degs cps u J :
  length u = length degs -> Forall (fun x => 0 < x /\ x < 1)%Qc u -> jacobian (bez degs cps) u J ->
  forall d j, d < dim_of cps -> j < length degs -> J d j = sp_deriv (bez degs cps) j u d.
Proof.
  intros L B H d j Hd Hj. specialize (H d j Hd). unfold bez in H at 1. cbn [sp_axes] in H. rewrite map_length in H. specialize (H Hj).
  assert (D : der (fun y => sp_value (bez degs cps) (put j y u) d) (nth j u 0%Qc) (sp_deriv (bez degs cps) j u d)).
  { unfold sp_value, sp_deriv. cbn [sp_weights bez sp_axes sp_cps].
    rewrite dbasis_split by (rewrite ?map_length; lia).
    rewrite (map_nth BezierAxis degs 0 j). cbn [ax_n ax_dfun].
    eapply der_ext with (r := 1%Qc); [reflexivity| |apply (tensor_der _ _ (fun y i => bernstein (nth j degs 0%nat) i y)); intros; apply bernstein_der].
    intros y _. cbv beta. rewrite basis_put by (rewrite ?map_length; lia).
    rewrite (map_nth BezierAxis degs 0 j). reflexivity. }
  apply der_is_deriv in D.
  eapply (deriv_unique _ _ _ _ _ 1%Qc); [reflexivity|intros; reflexivity|exact H|exact D].
Qed.

Fixpoint all_ix (rs : list nat) : list (list nat) :=
  match rs with [] => [[]] | r :: rs => flat_map (fun ix => map (fun i => i :: ix) (seq 0 r)) (all_ix rs) end.
Lemma in_all_ix rs : forall ix, valid_digits rs ix -> In ix (all_ix rs).
Proof.
  induction rs as [|r rs IH]; intros ix V; inversion V; subst; cbn; [auto|].
  apply in_flat_map. eexists. split; [apply IH; eassumption|]. apply in_map_iff. eexists. split; [reflexivity|]. apply in_seq. lia.
Qed.
(** Difference of neighbouring control points along axis [j], coordinate [c]. *)
Definition edge (degs : list nat) (cps : list (list Qc)) (j c : nat) (ix : list nat) : Qc :=
  (net (bres degs) cps c (bump j ix) - net (bres degs) cps c ix)%Qc.
Definition edges_ix (degs : list nat) (j : nat) : list (list nat) := all_ix (bres (lower j degs)).
Definition small (degs : list nat) : Prop := Forall (fun p => 1 <= p <= 3) degs.
Definition edge_mean (degs : list nat) (cps : list (list Qc)) (u : list Qc) (j c : nat) : Qc :=
  tensor (sp_basis (baxes (lower j degs)) u) (edge degs cps j c).
Section means.
  Variables (degs : list nat) (u : list Qc) (j : nat).
  Hypotheses (L : length u = length degs) (Hj : j < length degs) (B : Forall (fun x => 0 <= x /\ x <= 1)%Qc u).
  Let T := tensor (sp_basis (baxes (lower j degs)) u).
  Lemma mean_pos f : Forall (fun ix => 0 < f ix)%Qc (edges_ix degs j) -> (0 < T f)%Qc.
  Proof.
    intros H. apply tensor_pos; [now apply basis_weights|]. intros ix V. rewrite Forall_forall in H. apply H.
    apply in_all_ix. replace (map fst (sp_basis (baxes (lower j degs)) u)) with (bres (lower j degs)) in V; auto.
    unfold sp_basis. rewrite map_map. cbn [fst]. rewrite <- bres_axes.
    assert (L' : length (baxes (lower j degs)) = length u).
    { unfold baxes, lower. rewrite map_length, app_length, firstn_length. cbn [length]. rewrite skipn_length. lia. }
    clear - L'. revert u L'. induction (baxes (lower j degs)) as [|a l IH]; intros [|x u] L'; try discriminate L'; [reflexivity|].
    cbn. f_equal. apply IH. now injection L'.
  Qed.
End means.
Definition pos2 (degs : list nat) (cps : list (list Qc)) : Prop :=
  all_of (fun I => all_of (fun K => 0 < edge degs cps 0%nat 0%nat I * edge degs cps 1%nat 1%nat K - edge degs cps 1%nat 0%nat K * edge degs cps 0%nat 1%nat I)%Qc
    (edges_ix degs 1)) (edges_ix degs 0).
Lemma det2_pos degs cps u J : length degs = 2 -> small degs -> dim_of cps = 2 -> length u = 2 ->
  Forall (fun x => 0 < x /\ x < 1)%Qc u -> pos2 degs cps -> jacobian (bez degs cps) u J -> (0 < det 2 J)%Qc.
Proof.
  intros Ld Sm Dc Lu B P H.
  assert (B' : Forall (fun x => 0 <= x /\ x <= 1)%Qc u).
  { eapply Forall_impl; [|exact B]. intros x [? ?]. split; now apply Qclt_le_weak. }
  assert (E : forall c j, c < 2 -> j < 2 -> J c j = (inj (nth j degs 0%nat) * edge_mean degs cps u j c)%Qc).
  { intros c j Hc Hj. rewrite (jacobian_bez degs cps u J) by (auto; lia).
    apply bez_deriv; try lia. unfold small in Sm. rewrite Forall_forall in Sm. apply Sm. apply nth_In. lia. }
  assert (N : forall j, j < 2 -> (0 < inj (nth j degs 0%nat))%Qc).
  { intros j Hj. apply inj_pos. unfold small in Sm. rewrite Forall_forall in Sm. specialize (Sm (nth j degs 0)).
    assert (1 <= nth j degs 0 <= 3) by (apply Sm; apply nth_In; lia). lia. }
  replace (det 2 J) with (J 0%nat 0%nat * J 1%nat 1%nat - J 0%nat 1%nat * J 1%nat 0%nat)%Qc.
  2:{ lazy -[Qcplus Qcmult Qcopp Qcminus Q2Qc]. ring. }
  rewrite !E by lia. pose proof (N 0 ltac:(lia)) as N0. pose proof (N 1 ltac:(lia)) as N1.
  set (p0 := inj (nth 0 degs 0)) in *. set (p1 := inj (nth 1 degs 0)) in *.
  assert (X : (0 < edge_mean degs cps u 0%nat 0%nat * edge_mean degs cps u 1%nat 1%nat - edge_mean degs cps u 0%nat 1%nat * edge_mean degs cps u 1%nat 0%nat)%Qc).
  { replace (edge_mean degs cps u 0%nat 0%nat * edge_mean degs cps u 1%nat 1%nat - edge_mean degs cps u 0%nat 1%nat * edge_mean degs cps u 1%nat 0%nat)%Qc with
      (tensor (sp_basis (baxes (lower 0%nat degs)) u) (fun I => tensor (sp_basis (baxes (lower 1%nat degs)) u) (fun K =>
         edge degs cps 0%nat 0%nat I * edge degs cps 1%nat 1%nat K + (- edge degs cps 0%nat 1%nat I) * edge degs cps 1%nat 0%nat K)%Qc)).
    - apply mean_pos; try lia; auto. eapply Forall_impl; [|exact (all_of_Forall _ _ P)]. intros I HI. cbv beta in HI |- *.
      apply mean_pos; try lia; auto. eapply Forall_impl; [|exact (all_of_Forall _ _ HI)]. intros K HK. cbv beta in HK |- *.
      match type of HK with (0 < ?x)%Qc => match goal with |- (0 < ?y)%Qc => replace y with x by ring end end. exact HK.
    - unfold edge_mean.
      transitivity (tensor (sp_basis (baxes (lower 0%nat degs)) u) (fun I =>
         edge_mean degs cps u 1%nat 1%nat * edge degs cps 0%nat 0%nat I + (- edge_mean degs cps u 1%nat 0%nat) * edge degs cps 0%nat 1%nat I)%Qc).
      + apply tensor_ext_c. intros I _. rewrite tensor_add, !tensor_mul_l. unfold edge_mean. ring.
      + rewrite tensor_add, !tensor_mul_l. unfold edge_mean. ring. }
  set (a := edge_mean degs cps u 0%nat 0%nat) in *. set (b := edge_mean degs cps u 1%nat 1%nat) in *. set (c := edge_mean degs cps u 0%nat 1%nat) in *. set (d := edge_mean degs cps u 1%nat 0%nat) in *.
  replace (p0 * a * (p1 * b) - p1 * d * (p0 * c))%Qc with (p0 * (p1 * (a * b - c * d)))%Qc by ring.
  apply Qc_mul_pos; [auto|]. apply Qc_mul_pos; auto.
Qed.

(** Patches whose edges follow the coordinate axes, except along axis [m]. *)
Definition aligned (n m : nat) (degs : list nat) (cps : list (list Qc)) : Prop :=
  all_of (fun j => all_of (fun c => all_of (fun ix =>
    if (c =? j)%nat then (0 < edge degs cps j c ix)%Qc else if (j =? m)%nat then True else edge degs cps j c ix = 0%Qc)
    (edges_ix degs j)) (seq 0 n)) (seq 0 n).
Lemma mean_zero degs u j f : length u = length degs -> j < length degs -> Forall (fun ix => f ix = 0%Qc) (edges_ix degs j) ->
  tensor (sp_basis (baxes (lower j degs)) u) f = 0%Qc.
Proof.
  intros L Hj H. transitivity (tensor (sp_basis (baxes (lower j degs)) u) (fun _ => 0%Qc)); [|apply tensor_zero].
  apply tensor_ext_c. intros ix V. rewrite Forall_forall in H. apply H. apply in_all_ix.
  replace (map fst (sp_basis (baxes (lower j degs)) u)) with (bres (lower j degs)) in V; auto.
  unfold sp_basis. rewrite map_map. cbn [fst]. rewrite <- bres_axes.
  assert (L' : length (baxes (lower j degs)) = length u).
  { unfold baxes, lower. rewrite map_length, app_length, firstn_length. cbn [length]. rewrite skipn_length. lia. }
  clear - L'. revert u L'. induction (baxes (lower j degs)) as [|a l IH]; intros [|x u] L'; try discriminate L'; [reflexivity|].
  cbn. f_equal. apply IH. now injection L'.
Qed.
Lemma box_weak u : Forall (fun x => 0 < x /\ x < 1)%Qc u -> Forall (fun x => 0 <= x /\ x <= 1)%Qc u.
Proof. intros B. eapply Forall_impl; [|exact B]. intros x [? ?]. split; now apply Qclt_le_weak. Qed.
Lemma jacobian_means degs cps u J n : length degs = n -> small degs -> dim_of cps = n -> length u = n ->
  Forall (fun x => 0 < x /\ x < 1)%Qc u -> jacobian (bez degs cps) u J ->
  (forall c j, c < n -> j < n -> J c j = (inj (nth j degs 0%nat) * edge_mean degs cps u j c)%Qc) /\
  (forall j, j < n -> (0 < inj (nth j degs 0%nat))%Qc).
Proof.
  intros Ld Sm Dc Lu B H. unfold small in Sm. rewrite Forall_forall in Sm. split.
  - intros c j Hc Hj. rewrite (jacobian_bez degs cps u J) by (auto; lia).
    apply bez_deriv; try lia. apply Sm. apply nth_In. lia.
  - intros j Hj. apply inj_pos. assert (1 <= nth j degs 0 <= 3) by (apply Sm; apply nth_In; lia). lia.
Qed.
Lemma aligned_pos n m degs cps u J : n = 2 \/ n = 3 -> m < n -> length degs = n -> small degs -> dim_of cps = n -> length u = n ->
  Forall (fun x => 0 < x /\ x < 1)%Qc u -> aligned n m degs cps -> jacobian (bez degs cps) u J -> (0 < det n J)%Qc.
Proof.
  intros Hn Hm Ld Sm Dc Lu B A H. destruct (jacobian_means degs cps u J n Ld Sm Dc Lu B H) as [E N]. apply box_weak in B.
  apply all_of_Forall in A. rewrite Forall_forall in A.
  assert (P : forall j, j < n -> (0 < J j j)%Qc).
  { intros j Hj. rewrite E by auto. apply Qc_mul_pos; [auto|]. apply mean_pos; try lia; auto.
    assert (Aj := A j ltac:(apply in_seq; lia)). cbv beta in Aj. apply all_of_Forall in Aj. rewrite Forall_forall in Aj. specialize (Aj j ltac:(apply in_seq; lia)).
    rewrite Nat.eqb_refl in Aj. apply all_of_Forall. exact Aj. }
  assert (Z : forall c j, c < n -> j < n -> c <> j -> j <> m -> J c j = 0%Qc).
  { intros c j Hc Hj H1 H2. rewrite E by auto. unfold edge_mean. rewrite mean_zero; [ring|lia|lia|].
    assert (Aj := A j ltac:(apply in_seq; lia)). cbv beta in Aj. apply all_of_Forall in Aj. rewrite Forall_forall in Aj. specialize (Aj c ltac:(apply in_seq; lia)).
    destruct (Nat.eqb_spec c j); [lia|]. destruct (Nat.eqb_spec j m); [lia|]. apply all_of_Forall. exact Aj. }
  clear E N A H. destruct Hn as [-> | ->].
  - replace (det 2 J) with (J 0%nat 0%nat * J 1%nat 1%nat - J 0%nat 1%nat * J 1%nat 0%nat)%Qc
      by (lazy -[Qcplus Qcmult Qcopp Qcminus Q2Qc]; ring).
    replace (J 0%nat 1%nat * J 1%nat 0%nat)%Qc with 0%Qc.
    + replace (J 0%nat 0%nat * J 1%nat 1%nat - 0)%Qc with (J 0%nat 0%nat * J 1%nat 1%nat)%Qc by ring. apply Qc_mul_pos; apply P; lia.
    + destruct (Nat.eq_dec m 0) as [->|]; [rewrite (Z 0 1)|rewrite (Z 1 0)]; try lia; ring.
  - replace (det 3 J) with (J 0%nat 0%nat * (J 1%nat 1%nat * J 2%nat 2%nat - J 1%nat 2%nat * J 2%nat 1%nat)
      - J 0%nat 1%nat * (J 1%nat 0%nat * J 2%nat 2%nat - J 1%nat 2%nat * J 2%nat 0%nat)
      + J 0%nat 2%nat * (J 1%nat 0%nat * J 2%nat 1%nat - J 1%nat 1%nat * J 2%nat 0%nat))%Qc
      by (lazy -[Qcplus Qcmult Qcopp Qcminus Q2Qc]; ring).
    assert (X : (0 < J 0%nat 0%nat * (J 1%nat 1%nat * J 2%nat 2%nat))%Qc).
    { apply Qc_mul_pos; [apply P; lia|]. apply Qc_mul_pos; apply P; lia. }
    assert (m = 0 \/ m = 1 \/ m = 2) as [->|[->| ->]] by lia.
    + rewrite (Z 0 1), (Z 0 2), (Z 1 2), (Z 2 1) by lia.
      match goal with |- (0 < ?y)%Qc => replace y with (J 0%nat 0%nat * (J 1%nat 1%nat * J 2%nat 2%nat))%Qc by ring end. exact X.
    + rewrite (Z 1 0), (Z 2 0), (Z 0 2), (Z 1 2) by lia.
      match goal with |- (0 < ?y)%Qc => replace y with (J 0%nat 0%nat * (J 1%nat 1%nat * J 2%nat 2%nat))%Qc by ring end. exact X.
    + rewrite (Z 1 0), (Z 2 0), (Z 0 1), (Z 2 1) by lia.
      match goal with |- (0 < ?y)%Qc => replace y with (J 0%nat 0%nat * (J 1%nat 1%nat * J 2%nat 2%nat))%Qc by ring end. exact X.
Qed.
(** Patches of three parameters whose edges along the first two axes are level and
    the others upright. *)
Definition upright (degs : list nat) (cps : list (list Qc)) : Prop :=
  all_of (fun ix => edge degs cps 0%nat 2%nat ix = 0)%Qc (edges_ix degs 0) /\
  all_of (fun ix => edge degs cps 1%nat 2%nat ix = 0)%Qc (edges_ix degs 1) /\
  all_of (fun ix => edge degs cps 2%nat 0%nat ix = 0 /\ edge degs cps 2%nat 1%nat ix = 0 /\ 0 < edge degs cps 2%nat 2%nat ix)%Qc (edges_ix degs 2) /\
  pos2 degs cps.
Lemma means_cross degs cps u : length u = length degs -> 2 <= length degs -> Forall (fun x => 0 <= x /\ x <= 1)%Qc u -> pos2 degs cps ->
  (0 < edge_mean degs cps u 0%nat 0%nat * edge_mean degs cps u 1%nat 1%nat - edge_mean degs cps u 0%nat 1%nat * edge_mean degs cps u 1%nat 0%nat)%Qc.
Proof.
  intros Lu Ld B' P.
  replace (edge_mean degs cps u 0%nat 0%nat * edge_mean degs cps u 1%nat 1%nat - edge_mean degs cps u 0%nat 1%nat * edge_mean degs cps u 1%nat 0%nat)%Qc with
      (tensor (sp_basis (baxes (lower 0%nat degs)) u) (fun I => tensor (sp_basis (baxes (lower 1%nat degs)) u) (fun K =>
         edge degs cps 0%nat 0%nat I * edge degs cps 1%nat 1%nat K + (- edge degs cps 0%nat 1%nat I) * edge degs cps 1%nat 0%nat K)%Qc)).
  - apply mean_pos; try lia; auto. eapply Forall_impl; [|exact (all_of_Forall _ _ P)]. intros I HI. cbv beta in HI |- *.
    apply mean_pos; try lia; auto. eapply Forall_impl; [|exact (all_of_Forall _ _ HI)]. intros K HK. cbv beta in HK |- *.
    match type of HK with (0 < ?x)%Qc => match goal with |- (0 < ?y)%Qc => replace y with x by ring end end. exact HK.
  - unfold edge_mean.
    transitivity (tensor (sp_basis (baxes (lower 0%nat degs)) u) (fun I =>
       edge_mean degs cps u 1%nat 1%nat * edge degs cps 0%nat 0%nat I + (- edge_mean degs cps u 1%nat 0%nat) * edge degs cps 0%nat 1%nat I)%Qc).
    + apply tensor_ext_c. intros I _. rewrite tensor_add, !tensor_mul_l. unfold edge_mean. ring.
    + rewrite tensor_add, !tensor_mul_l. unfold edge_mean. ring.
Qed.
Lemma upright_pos degs cps u J : length degs = 3 -> small degs -> dim_of cps = 3 -> length u = 3 ->
  Forall (fun x => 0 < x /\ x < 1)%Qc u -> upright degs cps -> jacobian (bez degs cps) u J -> (0 < det 3 J)%Qc.
Proof.
  intros Ld Sm Dc Lu B (U1 & U2 & U3 & P) H. apply all_of_Forall in U1, U2, U3. destruct (jacobian_means degs cps u J 3 Ld Sm Dc Lu B H) as [E N]. apply box_weak in B.
  assert (X := means_cross degs cps u ltac:(lia) ltac:(lia) B P).
  replace (det 3 J) with (J 0%nat 0%nat * (J 1%nat 1%nat * J 2%nat 2%nat - J 1%nat 2%nat * J 2%nat 1%nat)
      - J 0%nat 1%nat * (J 1%nat 0%nat * J 2%nat 2%nat - J 1%nat 2%nat * J 2%nat 0%nat)
      + J 0%nat 2%nat * (J 1%nat 0%nat * J 2%nat 1%nat - J 1%nat 1%nat * J 2%nat 0%nat))%Qc
      by (lazy -[Qcplus Qcmult Qcopp Qcminus Q2Qc]; ring).
  assert (Z : J 2 0 = 0%Qc /\ J 2 1 = 0%Qc /\ J 0 2 = 0%Qc /\ J 1 2 = 0%Qc /\ (0 < J 2%nat 2%nat)%Qc).
  { rewrite !E by lia. unfold edge_mean.
    assert (U4 : Forall (fun ix => edge degs cps 2%nat 0%nat ix = 0%Qc) (edges_ix degs 2)) by (eapply Forall_impl; [|exact U3]; intros ? (? & ? & ?); auto).
    assert (U5 : Forall (fun ix => edge degs cps 2%nat 1%nat ix = 0%Qc) (edges_ix degs 2)) by (eapply Forall_impl; [|exact U3]; intros ? (? & ? & ?); auto).
    rewrite (mean_zero degs u 0), (mean_zero degs u 1), (mean_zero degs u 2 (edge degs cps 2 0)), (mean_zero degs u 2 (edge degs cps 2 1)) by (auto; lia).
    repeat split; try ring. apply Qc_mul_pos; [apply N; lia|]. apply mean_pos; try lia; auto.
    eapply Forall_impl; [|exact U3]; intros ? (? & ? & ?); auto. }
  destruct Z as (Z1 & Z2 & Z3 & Z4 & Z5). rewrite Z1, Z2, Z3, Z4.
  pose proof (N 0 ltac:(lia)) as N0. pose proof (N 1 ltac:(lia)) as N1. rewrite !(E 0), !(E 1) by lia.
  set (p0 := inj (nth 0 degs 0)) in *. set (p1 := inj (nth 1 degs 0)) in *.
  set (a := edge_mean degs cps u 0 0) in *. set (b := edge_mean degs cps u 1 1) in *. set (c := edge_mean degs cps u 0 1) in *. set (d := edge_mean degs cps u 1 0) in *.
  match goal with |- (0 < ?y)%Qc => replace y with (p0 * (p1 * ((a * b - c * d) * J 2%nat 2%nat)))%Qc by ring end.
  apply Qc_mul_pos; [auto|]. apply Qc_mul_pos; [auto|]. apply Qc_mul_pos; auto.
Qed.

(** ** Orientation, position and change of a list of patches *)
Definition smallb (degs : list nat) : bool := forallb (fun p => (1 <=? p) && (p <=? 3)) degs.
Lemma smallb_small degs : smallb degs = true -> small degs.
Proof.
  unfold smallb, small. rewrite forallb_forall, Forall_forall. intros H p Hp. specialize (H p Hp).
  apply andb_true_iff in H. rewrite !Nat.leb_le in H. exact H.
Qed.
(** How a patch is seen to be oriented. *)
Inductive shape := Crossing | Aligned (m : nat) | Upright.
Definition oriented (n : nat) (p : spline) (sh : shape) : Prop :=
  (length (degs_of p) =? n) && (dim_of (sp_cps p) =? n) && smallb (degs_of p) &&
    match sh with Crossing => n =? 2 | Aligned m => (m <? n) && ((n =? 2) || (n =? 3)) | Upright => n =? 3 end = true /\
  match sh with
  | Crossing => pos2 (degs_of p) (sp_cps p)
  | Aligned m => aligned n m (degs_of p) (sp_cps p)
  | Upright => upright (degs_of p) (sp_cps p)
  end.
Lemma right_handed_by n T shs : Forall is_bez T -> all_of2 (oriented n) T shs -> right_handed T.
Proof.
  intros HB HO p u J Hp Bu Lu H. apply all_of2_Forall2 in HO. rewrite Forall_forall in HB. specialize (HB p Hp).
  destruct (Forall2_in_l _ _ _ _ HO Hp) as (sh & _ & O). destruct O as (O & C). rewrite !andb_true_iff in O. destruct O as (((L & D) & S) & N).
  apply Nat.eqb_eq in L, D. apply smallb_small in S. rewrite para_dim_degs, L in *. rewrite HB in H.
  destruct sh as [|m|].
  - apply Nat.eqb_eq in N. rewrite N in *. exact (det2_pos _ _ u J L S D Lu Bu C H).
  - apply andb_true_iff in N. destruct N as [Hm N]. apply Nat.ltb_lt in Hm. apply orb_true_iff in N. rewrite !Nat.eqb_eq in N.
    exact (aligned_pos n m _ _ u J N Hm L S D Lu Bu C H).
  - apply Nat.eqb_eq in N. rewrite N in *. exact (upright_pos _ _ u J L S D Lu Bu C H).
Qed.
Definition placed_in (dim : nat) (p : spline) : Prop :=
  (length (sp_cps p) =? netn (degs_of p)) = true /\
  all_of (fun r => all_of (fun c => 0 <= nth c r 0 /\ nth c r 0 <= 1)%Qc (seq 0 dim)) (sp_cps p).
Lemma inside_by dim T : Forall is_bez T -> all_of (placed_in dim) T -> inside_cell dim T.
Proof.
  intros HB HP p u c Hp Hu Hc. apply all_of_Forall in HP. rewrite Forall_forall in HB, HP. specialize (HB p Hp). destruct (HP p Hp) as [L R]. apply Nat.eqb_eq in L. apply all_of_Forall in R.
  rewrite para_dim_degs in Hu. rewrite HB. apply bez_between; auto.
  eapply Forall_impl; [|exact R]. intros r Hr. cbv beta in Hr. apply all_of_Forall in Hr. rewrite Forall_forall in Hr. apply Hr. apply in_seq. lia.
Qed.
(** Rows of control points of [p'] are those of [p] and [t] times those of [d]. *)
Definition moves (dim : nat) (t : Qc) (p d p' : spline) : Prop :=
  same_list (degs_of d) (degs_of p) && same_list (degs_of p') (degs_of p) = true /\
  all_of (fun g => all_of (fun c => coord (sp_cps p') c g = coord (sp_cps p) c g + t * coord (sp_cps d) c g)%Qc (seq 0 dim))
    (seq 0 (netn (degs_of p))).
Fixpoint moves_all (dim : nat) (t : Qc) (T D T' : list spline) : Prop :=
  match T, D, T' with
  | [], [], [] => True
  | p :: T, d :: D, p' :: T' => moves dim t p d p' /\ moves_all dim t T D T'
  | _, _, _ => False
  end.
Lemma moves_all_nth dim t : forall T D T', moves_all dim t T D T' -> length D = length T /\ length T' = length T /\
  forall k, k < length T -> moves dim t (nth k T none) (nth k D none) (nth k T' none).
Proof.
  induction T as [|p T IH]; intros [|d D] [|p' T'] H; cbn in H; try contradiction.
  - split; auto. split; auto. cbn. intros; lia.
  - destruct H as (M & H). destruct (IH _ _ H) as (L & L' & G). split; [cbn; auto|]. split; [cbn; auto|].
    intros [|k] Hk; cbn [nth length] in *; [auto|]. apply G. lia.
Qed.
Lemma changes_affine dim make p d T D : Forall is_bez T -> Forall is_bez D -> length D = length T ->
  (forall t T', make (moved p d t) = Some T' -> Forall is_bez T' /\ moves_all dim t T D T') -> changes_by dim make p d T D.
Proof.
  intros BT BD L H. split; auto. intros k u c Hk Hu Hc e He. exists 1%Qc. split; [reflexivity|].
  intros t T' Ht Hm. destruct (H t T' Hm) as [BT' M]. destruct (moves_all_nth _ _ _ _ _ M) as (_ & L' & G).
  destruct (G k Hk) as (E & R). fold none in *. rewrite para_dim_degs in Hu.
  apply andb_true_iff in E. destruct E as [E1 E2]. apply same_list_eq in E1, E2.
  rewrite Forall_forall in BT, BD, BT'.
  assert (X : sp_value (nth k T' none) u c = (sp_value (nth k T none) u c + t * sp_value (nth k D none) u c)%Qc).
  { rewrite (BT (nth k T none)), (BD (nth k D none)), (BT' (nth k T' none)) by (apply nth_In; lia).
    rewrite E1, E2. apply bez_affine; [apply Hu|].
    intros g Hg. apply all_of_Forall in R. rewrite Forall_forall in R. specialize (R g ltac:(apply in_seq; lia)). cbv beta in R.
    apply all_of_Forall in R. rewrite Forall_forall in R. apply R. apply in_seq. lia. }
  rewrite X. match goal with |- (qabs ?x <= _)%Qc => replace x with 0%Qc by ring end.
  change (qabs 0) with 0%Qc. apply Qc_mul_nonneg; [now apply Qclt_le_weak|apply qabs_nonneg].
Qed.

(** ** Points of facets *)
Lemma in_box_insert n k x v : k <= n -> in_box n v -> (0 <= x /\ x <= 1)%Qc -> in_box (S n) (insert_at k x v).
Proof.
  intros Hk [L B] Hx. unfold insert_at. split.
  - rewrite app_length. cbn [length]. rewrite firstn_length, skipn_length. lia.
  - apply Forall_app. split; [apply Forall_forall; intros y Hy; rewrite Forall_forall in B; apply B; rewrite <- (firstn_skipn k v); apply in_app_iff; auto|].
    constructor; auto. apply Forall_forall. intros y Hy. rewrite Forall_forall in B. apply B. rewrite <- (firstn_skipn k v). apply in_app_iff. auto.
Qed.
Lemma facet_point p k up v : is_bez p -> k < length (degs_of p) -> in_box (length (degs_of p) - 1) v ->
  exists u, in_box (para_dim p) u /\ forall c, sp_value p u c = sp_value (bez (remove_at k (degs_of p)) (fcps p k up)) v c.
Proof.
  intros Hb Hk Hv. exists (insert_at k (bound up) v). split.
  - rewrite para_dim_degs. replace (length (degs_of p)) with (S (length (degs_of p) - 1)) by lia.
    apply in_box_insert; [lia|auto|]. destruct up; cbn; split; discriminate.
  - intros c. unfold fcps. rewrite <- facet_bez; [|auto|apply Hv]. unfold facet_value. now rewrite <- Hb.
Qed.
Lemma segment_value r0 r1 t c : sp_value (bez [1] [r0; r1]) [t] c = ((1 - t) * nth c r0 0 + t * nth c r1 0)%Qc.
Proof.
  rewrite bez_value. unfold functional, baxes. cbn -[Qcplus Qcmult Qcminus bernstein]. unfold bernstein. cbn -[Qcplus Qcmult Qcminus inj].
  unfold coord. cbn. rewrite inj_1. ring.
Qed.
Lemma square_value r00 r10 r01 r11 s t c : sp_value (bez [1; 1] [r00; r10; r01; r11]) [s; t] c =
  ((1 - t) * ((1 - s) * nth c r00 0 + s * nth c r10 0) + t * ((1 - s) * nth c r01 0 + s * nth c r11 0))%Qc.
Proof.
  rewrite bez_value. unfold functional, baxes. cbn -[Qcplus Qcmult Qcminus bernstein]. unfold bernstein. cbn -[Qcplus Qcmult Qcminus inj].
  unfold coord. cbn. rewrite inj_1. ring.
Qed.
Lemma ratio_bounds y a b : (a < b)%Qc -> (a <= y)%Qc -> (y <= b)%Qc ->
  (0 <= (y - a) / (b - a) /\ (y - a) / (b - a) <= 1)%Qc /\ (a + (y - a) / (b - a) * (b - a) = y)%Qc.
Proof.
  intros H1 H2 H3. assert (P : (0 < b - a)%Qc) by qlra. split; [split|].
  - apply Qc_div_nonneg; [qlra|now apply Qclt_le_weak].
  - apply Qc_div_le; auto. qlra.
  - field. intro E. rewrite E in P. discriminate P.
Qed.
(** A straight edge in the plane covers the points between its ends. *)
Lemma edge_covers p k up a b x y r0 r1 : is_bez p ->
  (k <? length (degs_of p)) && same_list (remove_at k (degs_of p)) [1] = true -> fcps p k up = [r0; r1] ->
  nth a r0 0%Qc = x -> nth a r1 0%Qc = x -> (nth b r0 0 < nth b r1 0)%Qc -> (nth b r0 0 <= y)%Qc -> (y <= nth b r1 0)%Qc ->
  exists u, in_box (para_dim p) u /\ sp_value p u a = x /\ sp_value p u b = y.
Proof.
  intros Hb Hd Hf E0 E1 H1 H2 H3. apply andb_true_iff in Hd. destruct Hd as [Hk Hd]. apply Nat.ltb_lt in Hk. apply same_list_eq in Hd.
  destruct (ratio_bounds y _ _ H1 H2 H3) as [B R]. set (t := ((y - nth b r0 0) / (nth b r1 0 - nth b r0 0))%Qc) in *. clearbody t.
  assert (L : length (degs_of p) - 1 = 1) by (rewrite <- (length_remove_at k) by auto; now rewrite Hd).
  destruct (facet_point p k up [t] Hb Hk) as (u & Hu & V); [rewrite L; split; auto|].
  exists u. split; auto. rewrite !V, Hd, Hf, !segment_value, E0, E1. split; [ring|]. rewrite <- R. ring.
Qed.
Lemma edge_covers_rev p k up a b x y r0 r1 : is_bez p ->
  (k <? length (degs_of p)) && same_list (remove_at k (degs_of p)) [1] = true -> fcps p k up = [r0; r1] ->
  nth a r0 0%Qc = x -> nth a r1 0%Qc = x -> (nth b r1 0 < nth b r0 0)%Qc -> (nth b r1 0 <= y)%Qc -> (y <= nth b r0 0)%Qc ->
  exists u, in_box (para_dim p) u /\ sp_value p u a = x /\ sp_value p u b = y.
Proof.
  intros Hb Hd Hf E0 E1 H1 H2 H3. apply andb_true_iff in Hd. destruct Hd as [Hk Hd]. apply Nat.ltb_lt in Hk. apply same_list_eq in Hd.
  destruct (ratio_bounds y _ _ H1 H2 H3) as [B R]. set (t := ((y - nth b r1 0) / (nth b r0 0 - nth b r1 0))%Qc) in *. clearbody t.
  assert (L : length (degs_of p) - 1 = 1) by (rewrite <- (length_remove_at k) by auto; now rewrite Hd).
  destruct (facet_point p k up [(1 - t)%Qc] Hb Hk) as (u & Hu & V).
  { rewrite L; split; auto. constructor; [|constructor]. destruct B. split; qlra. }
  exists u. split; auto. rewrite !V, Hd, Hf, !segment_value, E0, E1. split; [ring|]. rewrite <- R. ring.
Qed.
(** A rectangle parallel to the axes. *)
Lemma rectangle_covers p k up a b c x y z r00 r10 r01 r11 : is_bez p ->
  (k <? length (degs_of p)) && same_list (remove_at k (degs_of p)) [1; 1] = true -> fcps p k up = [r00; r10; r01; r11] ->
  nth a r00 0%Qc = x -> nth a r10 0%Qc = x -> nth a r01 0%Qc = x -> nth a r11 0%Qc = x ->
  nth b r01 0%Qc = nth b r00 0%Qc -> nth b r11 0%Qc = nth b r10 0%Qc -> nth c r10 0%Qc = nth c r00 0%Qc -> nth c r11 0%Qc = nth c r01 0%Qc ->
  (nth b r00 0 < nth b r10 0)%Qc -> (nth b r00 0 <= y)%Qc -> (y <= nth b r10 0)%Qc ->
  (nth c r00 0 < nth c r01 0)%Qc -> (nth c r00 0 <= z)%Qc -> (z <= nth c r01 0)%Qc ->
  exists u, in_box (para_dim p) u /\ sp_value p u a = x /\ sp_value p u b = y /\ sp_value p u c = z.
Proof.
  intros Hb Hd Hf E0 E1 E2 E3 F0 F1 G0 G1 H1 H2 H3 I1 I2 I3.
  apply andb_true_iff in Hd. destruct Hd as [Hk Hd]. apply Nat.ltb_lt in Hk. apply same_list_eq in Hd.
  destruct (ratio_bounds y _ _ H1 H2 H3) as [B R]. destruct (ratio_bounds z _ _ I1 I2 I3) as [B' R'].
  set (s := ((y - nth b r00 0) / (nth b r10 0 - nth b r00 0))%Qc) in *. set (t := ((z - nth c r00 0) / (nth c r01 0 - nth c r00 0))%Qc) in *. clearbody s t.
  assert (L : length (degs_of p) - 1 = 2) by (rewrite <- (length_remove_at k) by auto; now rewrite Hd).
  destruct (facet_point p k up [s; t] Hb Hk) as (u & Hu & V); [rewrite L; split; auto|].
  exists u. split; auto. rewrite !V, Hd, Hf, !square_value, E0, E1, E2, E3, F0, F1, G0, G1. split; [ring|]. split; [rewrite <- R; ring|rewrite <- R'; ring].
Qed.
