(** Proofs about created splines. *)
From Coq Require Import List Arith ZArith Lia Bool QArith Qcanon Qround.
From Verif Require Import Base BaseRadix BaseQc S_Grid P_Grid S_Spline P_Spline S_Value P_Value M_Core S_Core P_Core
  M_Files S_Files P_Files M_Bezier P_Bezier M_Elevate S_Pieces P_Pieces M_Create S_Create.
Import ListNotations.
Local Open Scope list_scope.
Local Open Scope nat_scope.

(** * Sweeping *)
Lemma functional_snoc axes a us t f : length us = length axes ->
  functional (axes ++ [a]) (us ++ [t]) f =
  qsum (map (fun j => (ax_fun a t j * functional axes us (fun g => f (g + prodn (map ax_n axes) * j)%nat))%Qc)
            (seq 0 (ax_n a))).
Proof.
  intros L. unfold functional. rewrite sp_basis_app by auto.
  change (sp_basis [a] [t]) with [(ax_n a, ax_fun a t)]. rewrite tensor_axis, app_nil_r, sp_basis_length by auto.
  apply qsum_ext. intros j Hj. f_equal. apply tensor_ext_c. rewrite sp_basis_fst by auto.
  intros ix V. pose proof (valid_length _ _ V) as Li. rewrite map_length in Li. f_equal.
  rewrite firstn_all2, skipn_all2 by lia. rewrite map_app. cbn [map].
  rewrite !flat_id_undigits by (rewrite ?app_length, ?map_length; cbn; lia).
  rewrite undigits_app by (rewrite map_length; lia). cbn [undigits]. lia.
Qed.

(** Affine functions of the coordinates. *)
Definition affine (dim : nat) (phi : (nat -> Qc) -> Qc) : Prop :=
  exists v m, forall x, phi x = (v + qsum (map (fun k => m k * x k) (seq 0 dim)))%Qc.

Lemma functional_mul axes us c f : functional axes us (fun g => (c * f g)%Qc) = (c * functional axes us f)%Qc.
Proof. unfold functional. apply tensor_mul_l. Qed.
Lemma functional_add axes us f g : functional axes us (fun i => (f i + g i)%Qc) = (functional axes us f + functional axes us g)%Qc.
Proof. unfold functional. apply tensor_add. Qed.
Lemma functional_sum axes us n f :
  functional axes us (fun g => qsum (map (fun k => f k g) (seq 0 n))) =
  qsum (map (fun k => functional axes us (f k)) (seq 0 n)).
Proof. unfold functional. apply (tensor_qsum (sp_basis axes us) (seq 0 n) (fun k ix => f k (flat_id (map ax_n axes) ix))). Qed.

Lemma functional_affine axes us dim phi P : affine dim phi -> functional axes us (fun _ => 1%Qc) = 1%Qc ->
  functional axes us (fun g => phi (P g)) = phi (fun k => functional axes us (fun g => P g k)).
Proof.
  intros (v & m & H) One.
  transitivity (functional axes us (fun g => (v * 1 + qsum (map (fun k => m k * P g k) (seq 0 dim)))%Qc)).
  { unfold functional. apply tensor_ext_c. intros ix _. rewrite H. ring. }
  rewrite functional_add, functional_mul, One, H, functional_sum. f_equal; [ring|]. apply qsum_ext.
  intros k _. apply functional_mul.
Qed.
Lemma functional_weighted axes us dim phi P w : affine dim phi -> functional axes us w <> 0%Qc ->
  functional axes us (fun g => (w g * phi (P g))%Qc) =
  (functional axes us w * phi (fun k => functional axes us (fun g => w g * P g k)%Qc / functional axes us w))%Qc.
Proof.
  intros (v & m & H) NZ.
  transitivity (functional axes us (fun g => (v * w g + qsum (map (fun k => m k * (w g * P g k)) (seq 0 dim)))%Qc)).
  { unfold functional. apply tensor_ext_c. intros ix _. rewrite H, Qcmult_plus_distr_r, <- qsum_map_mul_l.
    f_equal; [ring|]. apply qsum_ext. intros; ring. }
  rewrite functional_add, functional_mul, H, functional_sum, Qcmult_plus_distr_r, <- qsum_map_mul_l.
  f_equal; [ring|]. apply qsum_ext. intros k _. rewrite functional_mul. field. exact NZ.
Qed.

Lemma nth_blocks {A B} (g : A -> list B) r L k i x d : (forall y, In y L -> length (g y) = r) ->
  nth_error L k = Some x -> i < r -> nth (i + r * k) (flat_map g L) d = nth i (g x) d.
Proof.
  revert k; induction L as [|y L IH]; intros [|k] H E Hi; try discriminate; cbn [flat_map].
  - injection E as ->. rewrite Nat.mul_0_r, Nat.add_0_r. apply app_nth1. rewrite H by now left. exact Hi.
  - rewrite app_nth2 by (rewrite H by (now left); nia). rewrite H by now left.
    replace (i + r * S k - r) with (i + r * k) by nia. apply IH; auto. intros z Hz. apply H. now right.
Qed.

(** Copies of a spline, mapped by [As] and with weights multiplied by [oms]. *)
Definition swept (s : spline) (a : paxis) (As : list (list Qc -> list Qc)) (oms : list Qc) : spline :=
  Spl (sp_axes s ++ [a]) (flat_map (fun A => map A (sp_cps s)) As)
      (option_map (fun ws => flat_map (fun o => map (Qcmult o) ws) oms) (sp_weights s)).

Lemma functional_pos axes us n ws : Forall ax_wf axes -> Forall2 ax_domain axes us ->
  length ws = prodn (map ax_n axes) -> n = prodn (map ax_n axes) -> Forall (fun w => (0 < w)%Qc) ws ->
  (0 < functional axes us (fun g => nth g ws 0%Qc))%Qc.
Proof.
  intros W D L -> F.
  assert (exists m, (0 < m)%Qc /\ Forall (fun w => (m <= w)%Qc) ws) as (m & Hm & Fm).
  { clear - F. induction F as [|w ws Hw F (m & Hm & IH)]; [exists 1%Qc; split; [reflexivity|constructor]|].
    destruct (Qclt_le_dec w m) as [H|H].
    - exists w. split; auto. constructor; [apply Qcle_refl|]. eapply Forall_impl; [|exact IH]. cbn. intros; qlra.
    - exists m. split; auto. }
  assert (functional axes us (fun g => nth g ws 0%Qc) =
          m * functional axes us (fun _ => 1%Qc) + functional axes us (fun g => nth g ws 0%Qc - m))%Qc as ->.
  { rewrite <- functional_mul, <- functional_add. unfold functional. apply tensor_ext_c. intros; ring. }
  rewrite functional_one by auto.
  assert (0 <= functional axes us (fun g => nth g ws 0%Qc - m))%Qc as N.
  { unfold functional. apply tensor_nonneg.
    - unfold sp_basis. clear - W D. induction D as [|a u l us Da D IH]; cbn; constructor; inversion W; subst; auto. cbn [fst snd].
      intros i Hi. destruct a as [p|p kv]; cbn [ax_fun].
      + destruct Da. now apply bernstein_nonneg.
      + apply bspline_basis_nonneg; auto.
    - intros ix V. rewrite sp_basis_fst in V by (symmetry; eapply Forall2_len; eauto).
      rewrite Forall_forall in Fm. rewrite flat_id_undigits by now apply valid_length.
      apply undigits_lt in V. specialize (Fm (nth (undigits (map ax_n axes) ix) ws 0%Qc)).
      assert (m <= nth (undigits (map ax_n axes) ix) ws 0%Qc)%Qc by (apply Fm, nth_In; lia). qlra. }
  qlra.
Qed.

Lemma swept_value s a As oms us t d dim phi : sp_wf s -> sp_domain s us ->
  match sp_weights s with Some ws => Forall (fun w => (0 < w)%Qc) ws | None => True end ->
  length As = ax_n a -> length oms = ax_n a ->
  (forall j, j < ax_n a -> affine dim (phi j)) ->
  (forall j A p, nth_error As j = Some A -> In p (sp_cps s) -> nth d (A p) 0%Qc = phi j (fun k => nth k p 0%Qc)) ->
  sp_value (swept s a As oms) (us ++ [t]) d =
  match sp_weights s with
  | None => qsum (map (fun j => ax_fun a t j * phi j (sp_value s us)) (seq 0 (ax_n a)))
  | Some _ => qsum (map (fun j => ax_fun a t j * nth j oms 0 * phi j (sp_value s us)) (seq 0 (ax_n a))) /
              qsum (map (fun j => ax_fun a t j * nth j oms 0) (seq 0 (ax_n a)))
  end%Qc.
Proof.
  intros (W & Lc & Lw) D Pos LA LO Aff HA. rewrite fold_right_mul_prodn in *.
  pose proof (Forall2_len _ _ _ D) as Lu.
  assert (HC : forall j g, j < ax_n a -> g < prodn (map ax_n (sp_axes s)) ->
    nth d (nth (g + prodn (map ax_n (sp_axes s)) * j) (flat_map (fun A => map A (sp_cps s)) As) []) 0%Qc =
    phi j (fun k => nth k (nth g (sp_cps s) []) 0%Qc)).
  { intros j g Hj Hg. destruct (nth_error As j) as [A|] eqn:EA; [|apply nth_error_None in EA; lia].
    rewrite (nth_blocks _ _ _ _ _ A) by (auto; intros; now rewrite map_length).
    rewrite (nth_indep _ _ (A [])) by (rewrite map_length, Lc; exact Hg). rewrite map_nth.
    apply HA; auto. apply nth_In. rewrite Lc. exact Hg. }
  assert (forall j, j < ax_n a -> forall x y : nat -> Qc, (forall k, x k = y k) -> phi j x = phi j y) as Ext.
  { intros j Hj x y E. destruct (Aff j Hj) as (v & m & H). rewrite !H. f_equal. apply qsum_ext. intros. now rewrite E. }
  rewrite sp_value_functional. unfold swept. cbn [sp_axes sp_cps sp_weights].
  destruct (sp_weights s) as [ws|] eqn:Ews; cbn [option_map].
  - assert (HW : forall j g, j < ax_n a -> g < prodn (map ax_n (sp_axes s)) ->
      nth (g + prodn (map ax_n (sp_axes s)) * j) (flat_map (fun o => map (Qcmult o) ws) oms) 0%Qc =
      (nth j oms 0 * nth g ws 0)%Qc).
    { intros j g Hj Hg. rewrite (nth_blocks _ _ _ _ _ (nth j oms 0%Qc)); auto.
      - rewrite (nth_indep _ _ (nth j oms 0 * 0)%Qc) by (rewrite map_length, Lw; exact Hg). now rewrite map_nth.
      - intros; now rewrite map_length.
      - apply nth_error_nth'. lia. }
    pose proof (functional_pos _ _ _ ws W D Lw eq_refl Pos) as HP.
    assert (functional (sp_axes s) us (fun g => nth g ws 0%Qc) <> 0%Qc) as NZ by (intros E; rewrite E in HP; now apply Qclt_not_eq in HP).
    rewrite !functional_snoc by auto.
    assert (qsum (map (fun j => ax_fun a t j * functional (sp_axes s) us (fun g =>
        nth (g + prodn (map ax_n (sp_axes s)) * j)%nat (flat_map (fun o => map (Qcmult o) ws) oms) 0))%Qc (seq 0 (ax_n a))) =
      functional (sp_axes s) us (fun g => nth g ws 0%Qc) * qsum (map (fun j => ax_fun a t j * nth j oms 0) (seq 0 (ax_n a))))%Qc as ->.
    { rewrite <- qsum_map_mul_l. apply qsum_ext. intros j Hj. apply in_seq in Hj.
      rewrite (functional_ext _ _ _ (fun g => nth j oms 0 * nth g ws 0)%Qc); auto.
      - rewrite functional_mul. ring.
      - intros g Hg. apply HW; auto; lia. }
    assert (forall A B C : Qc, C <> 0 -> (C * A) / (C * B) = A / B)%Qc as Cancel.
    { intros A B C N. destruct (Qc_eq_dec B 0) as [->|NB]; [rewrite Qcmult_0_r; unfold Qcdiv; now rewrite !Qcmult_0_r|].
      field. auto. }
    rewrite <- (Cancel (qsum (map (fun j => ax_fun a t j * nth j oms 0 * phi j (sp_value s us))%Qc (seq 0 (ax_n a)))) _
      (functional (sp_axes s) us (fun g => nth g ws 0%Qc)) NZ). f_equal.
    rewrite <- qsum_map_mul_l. apply qsum_ext. intros j Hj. apply in_seq in Hj.
    rewrite (functional_ext _ _ _ (fun g => nth j oms 0 * (nth g ws 0 * phi j (fun k => nth k (nth g (sp_cps s) []) 0)))%Qc); auto.
    + rewrite functional_mul, (functional_weighted _ _ dim _ _ _ (Aff j ltac:(lia)) NZ).
      rewrite (Ext j ltac:(lia) _ (sp_value s us)); [ring|].
      intros k. rewrite sp_value_functional, Ews. reflexivity.
    + intros g Hg. rewrite HW, HC by (auto; lia). ring.
  - rewrite functional_snoc by auto. apply qsum_ext. intros j Hj. apply in_seq in Hj. f_equal.
    rewrite (functional_ext _ _ _ (fun g => phi j (fun k => nth k (nth g (sp_cps s) []) 0%Qc))); auto.
    + rewrite (functional_affine _ _ dim _ _ (Aff j ltac:(lia)) (functional_one _ _ W D)). apply Ext; [lia|].
      intros k. rewrite sp_value_functional, Ews. reflexivity.
    + intros g Hg. apply HC; auto; lia.
Qed.

(** * Handing properties to the constructor *)
Lemma make_accepts limit s i degs kvs cps ws : complete (name_of s) i degs kvs cps ws ->
  consistent degs kvs cps ws -> supported limit degs kvs cps ->
  make limit s i = Some (Spl (make_axes degs kvs) cps ws).
Proof.
  intros Cm Cs Sp. destruct (construct_accepts limit _ _ _ _ _ _ Cm (Spl (make_axes degs kvs) cps ws)) as [_ B].
  destruct B as (st & E & H).
  - refine (conj Cs (conj Sp _)). now apply new_core_properties.
  - unfold make. now rewrite E.
Qed.
Lemma make_built limit s i s' : make limit s i = Some s' <-> built limit (name_of s) i s'.
Proof.
  unfold make, built. destruct (construct limit (name_of s) i) as [st|st] eqn:E; split.
  - intros H. now exists st.
  - intros (st' & [= <-] & H). exact H.
  - discriminate.
  - intros (st' & H & _). discriminate.
Qed.

(** Core of a storable spline. *)
Lemma storable_core limit s : storable limit s ->
  exists cps ws, sp_cps s = cps /\ sp_weights s = ws /\
    consistent (core_degrees s) (if has_kvs s then Some (core_kvs s) else None) cps ws /\
    supported limit (core_degrees s) (if has_kvs s then Some (core_kvs s) else None) cps /\
    make_axes (core_degrees s) (if has_kvs s then Some (core_kvs s) else None) = sp_axes s.
Proof.
  intros (degs & kvs & cps & ws & C & Sp & H). destruct (core_props s degs kvs cps ws C H) as (E1 & E2 & E3 & E4 & E5 & _).
  exists cps, ws. rewrite E1, E2. repeat (split; [assumption|]). now rewrite E5.
Qed.

Lemma wanted_snoc degs kvs q kv :
  match kvs with Some kvs => length kvs = length degs | None => True end ->
  wanted (degs ++ [q]) (option_map (fun k => k ++ [kv]) kvs) =
  (wanted degs kvs * match kvs with Some _ => Z.of_nat (length kv) - q - 1 | None => q + 1 end)%Z.
Proof.
  revert kvs; induction degs as [|d degs IH]; intros [kvs|] L; cbn [app option_map wanted].
  - destruct kvs; [|discriminate]. cbn [app wanted]. lia.
  - lia.
  - destruct kvs as [|k kvs]; [discriminate|]. cbn [app]. injection L as L. specialize (IH (Some kvs) L). cbn [option_map] in IH.
    rewrite IH. lia.
  - specialize (IH None I). cbn [option_map] in IH. rewrite IH. lia.
Qed.
Lemma make_axes_snoc degs kvs q kv :
  match kvs with Some kvs => length kvs = length degs | None => True end ->
  make_axes (degs ++ [q]) (option_map (fun k => k ++ [kv]) kvs) =
  make_axes degs kvs ++ [match kvs with Some _ => KnotAxis (Z.to_nat q) kv | None => BezierAxis (Z.to_nat q) end].
Proof.
  revert kvs; induction degs as [|d degs IH]; intros [kvs|] L; cbn [app option_map make_axes].
  - destruct kvs; [|discriminate]. reflexivity.
  - reflexivity.
  - destruct kvs as [|k kvs]; [discriminate|]. injection L as L. specialize (IH (Some kvs) L). cbn [option_map] in IH.
    cbn [app hd tl]. now rewrite IH.
  - specialize (IH None I). cbn [option_map] in IH. now rewrite IH.
Qed.

Definition blocks (s : spline) (q : nat) (kv : list Qc) : nat := if has_kvs s then length kv - q - 1 else q + 1.
Definition new_axis (s : spline) (q : nat) (kv : list Qc) : paxis := if has_kvs s then KnotAxis q kv else BezierAxis q.

Section Extend.
Variables (limit : nat) (s : spline) (q : nat) (kv : list Qc) (cps' : list (list Qc)) (ws' : option (list Qc)) (dim' : nat).
Hypothesis (St : storable limit s) (Hq : knots_fit (Z.of_nat q) kv) (Hdim : 0 < dim')
  (Hrows : Forall (fun p => length p = dim') cps') (Hc : length cps' = length (sp_cps s) * blocks s q kv)
  (Hk : ws' <> None <-> sp_weights s <> None)
  (Hw : match ws' with Some w => length w = length cps' | None => True end).
Let i := Inputs (Some (core_degrees s ++ [Z.of_nat q]))
  (if has_kvs s then Some (core_kvs s ++ [kv]) else None) (Some cps') ws'.
Let kvs' := if has_kvs s then Some (core_kvs s ++ [kv]) else None.

Lemma extend_complete : complete (name_of s) i (core_degrees s ++ [Z.of_nat q]) kvs' cps' ws'.
Proof.
  clear St Hq Hdim Hrows Hc Hw. unfold i, kvs', name_of, complete. cbn [in_deg in_cps in_kvs in_ws]. split; [easy|]. split; [easy|].
  destruct (has_kvs s), (sp_weights s), ws'; intuition (discriminate || congruence).
Qed.
Lemma extend_consistent : consistent (core_degrees s ++ [Z.of_nat q]) kvs' cps' ws'.
Proof.
  destruct (storable_core limit s St) as (cps & ws & E1 & E2 & (N & K & R & L & _) & _).
  unfold consistent. split; [intros H; now apply app_eq_nil in H as [H _]|]. split; [|split; [exists dim'; now split|split]].
  - unfold kvs'. destruct (has_kvs s).
    + apply Forall2_app; [exact K|]. constructor; auto.
    + apply Forall_app. split; [exact K|]. constructor; [lia|auto].
  - subst cps.
    assert (kvs' = option_map (fun k => k ++ [kv]) (if has_kvs s then Some (core_kvs s) else None)) as ->
      by (unfold kvs'; now destruct (has_kvs s)).
    rewrite wanted_snoc, <- L, Hc.
    + unfold blocks. destruct Hq as (_ & _ & Hl). destruct (has_kvs s); lia.
    + unfold core_kvs, core_degrees. destruct (has_kvs s); [now rewrite !map_length|easy].
  - exact Hw.
Qed.
Lemma extend_make : length (sp_axes s) < limit -> (has_kvs s = false -> dim' <= limit) ->
  Forall (fun k => (qc (-1) 1 <= k)%Qc) kv ->
  make limit s i = Some (Spl (sp_axes s ++ [new_axis s q kv]) cps' ws').
Proof.
  intros Hl Hd Hb. destruct (storable_core limit s St) as (cps & ws & E1 & E2 & C & (_ & Sp) & Ax).
  rewrite (make_accepts limit s i _ _ _ _ extend_complete extend_consistent).
  - f_equal. f_equal.
    assert (kvs' = option_map (fun k => k ++ [kv]) (if has_kvs s then Some (core_kvs s) else None)) as ->
      by (unfold kvs'; now destruct (has_kvs s)).
    rewrite make_axes_snoc.
    + rewrite Ax. unfold new_axis. rewrite Nat2Z.id. now destruct (has_kvs s).
    + unfold core_kvs, core_degrees. destruct (has_kvs s); [now rewrite !map_length|easy].
  - split.
    + rewrite app_length. unfold core_degrees. rewrite map_length. cbn. lia.
    + unfold kvs'. destruct (has_kvs s) eqn:E.
      * apply Forall_app. split; [exact Sp|]. auto.
      * eapply Forall_impl; [|exact Hrows]. cbn. intros p ->. auto.
Qed.
End Extend.

(** * Extrusion *)
Lemma dim_of_rows dim l : Forall (fun p : list Qc => length p = dim) l -> l <> [] -> dim_of l = dim.
Proof. intros F N. destruct F; [easy|]. now cbn. Qed.
Lemma storable_points limit s : storable limit s -> sp_cps s <> [].
Proof.
  intros H. destruct (storable_core limit s H) as (cps & ws & <- & _ & (N & K & _ & L & _) & _). intros E. rewrite E in L. cbn in L.
  assert (forall degs kvs, match kvs with None => Forall (fun d => (0 <= d)%Z) degs | Some kvs => Forall2 knots_fit degs kvs end ->
    (0 < wanted degs kvs)%Z) as P.
  { intros degs [kvs|] F.
    - induction F as [|d kv degs kvs (H1 & _ & H2) F IH]; cbn [wanted]; [lia|]. nia.
    - induction F as [|d degs Hd F IH]; cbn [wanted]; [lia|]. nia. }
  specialize (P _ _ K). lia.
Qed.
Lemma dims_eq limit dim s : storable limit s -> Forall (fun p => length p = dim) (sp_cps s) -> dim_of (sp_cps s) = dim.
Proof. intros St F. apply dim_of_rows; auto. now apply (storable_points limit). Qed.
Lemma dim_pos limit dim s : storable limit s -> Forall (fun p => length p = dim) (sp_cps s) -> 0 < dim.
Proof.
  intros St F. pose proof (storable_points _ _ St) as N.
  destruct (storable_core limit s St) as (cps & ws & <- & _ & (_ & _ & (k & K & R) & _) & _).
  destruct F; [easy|]. inversion R; subst. lia.
Qed.

Lemma row_add_length p v : length (row_add p v) = min (length p) (length v).
Proof. unfold row_add. now rewrite map_length, combine_length. Qed.
Lemma row_sub_length p v : length (row_sub p v) = min (length p) (length v).
Proof. unfold row_sub. now rewrite map_length, combine_length. Qed.
Lemma row_scale_length c p : length (row_scale c p) = length p.
Proof. unfold row_scale. now rewrite map_length. Qed.
Lemma zero_padded_length n p : length p <= n -> length (zero_padded n p) = n.
Proof. intros. unfold zero_padded. rewrite app_length, repeat_length. lia. Qed.
Lemma row_add_nth p v d : length p = length v -> nth d (row_add p v) 0%Qc = (nth d p 0 + nth d v 0)%Qc.
Proof.
  revert v d; induction p as [|x p IH]; intros [|y v] [|d] L; try discriminate; cbn; try ring. apply IH. now injection L.
Qed.
Lemma row_sub_nth p v d : length p = length v -> nth d (row_sub p v) 0%Qc = (nth d p 0 - nth d v 0)%Qc.
Proof.
  revert v d; induction p as [|x p IH]; intros [|y v] [|d] L; try discriminate; cbn; try ring. apply IH. now injection L.
Qed.
Lemma row_scale_nth c p d : nth d (row_scale c p) 0%Qc = (c * nth d p 0)%Qc.
Proof. revert d; induction p as [|x p IH]; intros [|d]; cbn; try ring. apply IH. Qed.
Lemma nth_zero_padded n p d : nth d (zero_padded n p) 0%Qc = nth d p 0%Qc.
Proof.
  unfold zero_padded. destruct (Nat.lt_ge_cases d (length p)).
  - now rewrite app_nth1.
  - rewrite app_nth2 by easy. rewrite (nth_overflow p) by easy.
    generalize (d - length p). induction (n - length p) as [|k IH]; intros [|j]; cbn; auto.
Qed.

Lemma affine_coord dim d v : affine dim (fun x => (embedded_in dim x d + v)%Qc).
Proof.
  exists v, (fun k => if k =? d then 1%Qc else 0%Qc). intros x. unfold embedded_in. rewrite Qcplus_comm. f_equal.
  destruct (Nat.ltb_spec d dim) as [H|H].
  - rewrite (qsum_single _ dim d); auto.
    + rewrite Nat.eqb_refl. ring.
    + intros i Hi Hn. destruct (Nat.eqb_spec i d); [easy|ring].
  - symmetry. apply qsum_zero. intros i Hi. apply in_seq in Hi. destruct (Nat.eqb_spec i d); [lia|ring].
Qed.
Lemma affine_ext dim phi psi : (forall x, phi x = psi x) -> affine dim phi -> affine dim psi.
Proof. intros E (v & m & H). exists v, m. intros x. now rewrite <- E. Qed.

Lemma linear_fun s q t i : i < q + 1 -> ax_fun (new_axis s q (bezier_knots q)) t i = bernstein q i t.
Proof. intros H. unfold new_axis. destruct (has_kvs s); [now apply bezier_knots_fun|reflexivity]. Qed.
Lemma new_axis_n s q : ax_n (new_axis s q (bezier_knots q)) = q + 1.
Proof. unfold new_axis. destruct (has_kvs s); [apply bezier_knots_n|reflexivity]. Qed.

Lemma bezier_fit q : knots_fit (Z.of_nat q) (bezier_knots q).
Proof.
  assert (length (bezier_knots q) = 2 * (q + 1)) as L by (unfold bezier_knots; rewrite app_length, !repeat_length; lia).
  split; [lia|]. split; [|lia]. intros a b H1 H2. rewrite L in H2.
  rewrite <- !kn_nth by lia. rewrite !bezier_knots_kn.
  destruct (Nat.leb_spec a q), (Nat.leb_spec b q); try lia; discriminate.
Qed.
Lemma bezier_high q : Forall (fun k => (qc (-1) 1 <= k)%Qc) (bezier_knots q).
Proof.
  unfold bezier_knots. apply Forall_app. split; apply Forall_forall; intros x H; apply repeat_spec in H; subst;
    unfold Qcle, Qle; vm_compute; discriminate.
Qed.
Lemma blocks_bezier s q : blocks s q (bezier_knots q) = q + 1.
Proof.
  unfold blocks. destruct (has_kvs s); [|easy]. unfold bezier_knots. rewrite app_length, !repeat_length. lia.
Qed.

Lemma bernstein_1_0 t : bernstein 1 0 t = (1 - t)%Qc.
Proof. rewrite bernstein_S0, bernstein_00. ring. Qed.
Lemma bernstein_1_1 t : bernstein 1 1 t = t.
Proof. rewrite bernstein_SS, bernstein_00, (bernstein_gt 0 1) by lia. ring. Qed.
Section Extrude.
Variables (limit dim : nat) (s : spline) (v : list Qc).
Hypothesis (So : sound limit dim s) (Hv : dim <= length v).
Let i := Inputs (Some (core_degrees s ++ [1%Z]))
      (if has_kvs s then Some (core_kvs s ++ [bezier_knots 1]) else None)
      (Some (flat_map (fun A => map A (sp_cps s))
         [zero_padded (length v); fun p => row_add (zero_padded (length v) p) v]))
      (option_map (fun w => w ++ w) (sp_weights s)).

Lemma extruded_eq : extruded s v = Some i.
Proof.
  destruct So as (St & _ & F & _). pose proof (dims_eq _ _ _ St F) as D. unfold extruded. rewrite D.
  destruct (Nat.ltb_spec (length v) dim); [lia|].
  assert ((if dim =? length v then sp_cps s else map (zero_padded (length v)) (sp_cps s)) = map (zero_padded (length v)) (sp_cps s)) as ->.
  { destruct (Nat.eqb_spec dim (length v)) as [E|]; [|easy]. rewrite <- (map_id (sp_cps s)) at 1. apply map_ext_in.
    intros p Hp. rewrite Forall_forall in F. unfold zero_padded. rewrite (F p Hp), <- E, Nat.sub_diag. now rewrite app_nil_r. }
  unfold i. cbn [flat_map]. rewrite app_nil_r, map_map. reflexivity.
Qed.

Lemma extruded_rows : Forall (fun p => length p = length v)
  (flat_map (fun A => map A (sp_cps s)) [zero_padded (length v); fun p => row_add (zero_padded (length v) p) v]).
Proof.
  destruct So as (St & _ & F & _). rewrite Forall_forall in *. intros p Hp. cbn [flat_map] in Hp. rewrite app_nil_r in Hp.
  apply in_app_or in Hp as [Hp|Hp]; apply in_map_iff in Hp as (p' & <- & Hp); specialize (F p' Hp).
  - apply zero_padded_length. lia.
  - rewrite row_add_length, zero_padded_length by lia. lia.
Qed.
Lemma extruded_count : length (flat_map (fun A => map A (sp_cps s)) [zero_padded (length v); fun p => row_add (zero_padded (length v) p) v]) =
  length (sp_cps s) * blocks s 1 (bezier_knots 1).
Proof. rewrite blocks_bezier. cbn [flat_map]. rewrite app_nil_r, app_length, !map_length. lia. Qed.
Lemma extruded_weights : match option_map (fun w => w ++ w) (sp_weights s) with
  | Some w => length w = length (flat_map (fun A => map A (sp_cps s)) [zero_padded (length v); fun p => row_add (zero_padded (length v) p) v])
  | None => True end.
Proof.
  destruct So as (_ & (_ & L & Lw) & _). destruct (sp_weights s) as [w|]; [|easy]. cbn [option_map flat_map].
  rewrite app_nil_r, !app_length, !map_length. lia.
Qed.
Lemma extruded_kind : option_map (fun w => w ++ w) (sp_weights s) <> None <-> sp_weights s <> None.
Proof. clear. destruct (sp_weights s); cbn; split; intros H; (exact H || discriminate). Qed.

Lemma extruded_consistent : exists degs kvs cps ws, complete (name_of s) i degs kvs cps ws /\ consistent degs kvs cps ws.
Proof.
  pose proof So as (St & _ & F & _). pose proof (dim_pos _ _ _ St F).
  do 4 eexists. split.
  - apply (extend_complete s 1 (bezier_knots 1)). exact extruded_kind.
  - eapply (extend_consistent limit s 1 (bezier_knots 1)) with (dim' := length v);
      [exact St|exact (bezier_fit 1)|lia|exact extruded_rows|exact extruded_count|exact extruded_weights].
Qed.

Lemma extruded_make : length (sp_axes s) < limit -> (has_kvs s = false -> length v <= limit) ->
  make limit s i = Some (swept s (new_axis s 1 (bezier_knots 1))
    [zero_padded (length v); fun p => row_add (zero_padded (length v) p) v] [1%Qc; 1%Qc]).
Proof.
  intros Hl Hd. pose proof So as (St & _ & F & _). pose proof (dim_pos _ _ _ St F).
  unfold i, swept.
  assert (option_map (fun ws => flat_map (fun o => map (Qcmult o) ws) [1%Qc; 1%Qc]) (sp_weights s) = option_map (fun w => w ++ w) (sp_weights s)) as ->.
  { destruct (sp_weights s) as [w|]; [|easy]. cbn [option_map flat_map]. rewrite app_nil_r. do 2 f_equal;
    rewrite <- (map_id w) at 2; apply map_ext; intros; ring. }
  apply (extend_make limit s 1 (bezier_knots 1)) with (dim' := length v); auto using bezier_fit, bezier_high, extruded_rows, extruded_count, extruded_kind.
  - lia.
  - exact extruded_weights.
Qed.

Lemma extruded_value us t d : sp_domain s us ->
  sp_value (swept s (new_axis s 1 (bezier_knots 1))
    [zero_padded (length v); fun p => row_add (zero_padded (length v) p) v] [1%Qc; 1%Qc]) (us ++ [t]) d =
  (embedded_in dim (sp_value s us) d + t * nth d v 0)%Qc.
Proof.
  intros D. pose proof So as (St & W & F & Pos).
  rewrite (swept_value s _ _ _ us t d dim (fun j x => embedded_in dim x d + (if j =? 0 then 0 else nth d v 0))%Qc); auto.
  - rewrite new_axis_n. cbn [Nat.add seq map qsum nth Nat.eqb]. rewrite !linear_fun by lia. rewrite bernstein_1_0, bernstein_1_1.
    destruct (sp_weights s); [|ring].
    assert ((1 - t) * 1 + (t * 1 + 0) = 1)%Qc as -> by ring. field. discriminate.
  - rewrite new_axis_n. reflexivity.
  - rewrite new_axis_n. reflexivity.
  - intros j _. apply affine_coord.
  - intros j A p EA Hp. rewrite Forall_forall in F. pose proof (F p Hp) as Lp.
    assert (embedded_in dim (fun k => nth k p 0%Qc) d = nth d p 0%Qc) as E.
    { unfold embedded_in. destruct (Nat.ltb_spec d dim); [easy|]. rewrite nth_overflow; [easy|lia]. }
    destruct j as [|[|j]]; cbn [nth_error] in EA; [| |destruct j; discriminate]; injection EA as <-; cbn [Nat.eqb]; rewrite E.
    + rewrite nth_zero_padded. ring.
    + rewrite row_add_nth by (apply zero_padded_length; lia). now rewrite nth_zero_padded.
Qed.
End Extrude.
