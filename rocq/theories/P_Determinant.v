(** The determinant spline is the Jacobian determinant. *)
From Coq Require Import List Arith ZArith Lia Bool QArith Qcanon Sorted.
From Verif Require Import Base BaseRadix BaseQc S_Grid S_Spline S_Value S_Knots S_Exact S_Deriv S_Integrate S_Core S_Solve S_Determinant M_Grid M_Core M_Knots M_Bezier M_Determinant P_Grid P_Basis P_Spline P_Deriv P_Bezier P_FitSurf P_Pieces P_Core P_View P_Integrate P_Exact P_Zeros P_SplineSpace P_AxisClass P_Placed P_TensorSpace.
Import ListNotations.
Local Open Scope list_scope.
Local Open Scope nat_scope.

(** * The axes of the result *)
Definition tms (n p : nat) (ms : list nat) : list nat := map (fun k => k + n * p - p - 1) (bumped ms).
Definition tgt (n : nat) (tol : Qc) (d : dir) : dir :=
  let p := ax_degree (d_a d) in let q := n * p - 1 in
  let a := match d_a d with BezierAxis _ => BezierAxis q | KnotAxis _ _ => KnotAxis q (expand_knots (d_us d) (tms n p (d_ms d))) end in
  Dir a (d_us d) (tms n p (d_ms d)) (match greville a tol with Some g => g | None => [] end).
Definition src_ok (n : nat) (eps tol : Qc) (d : dir) : Prop :=
  dir_form d /\ (forall c, 0 < c -> c < length (d_ms d) - 1 -> nth c (d_ms d) 0 <= ax_degree (d_a d)) /\ 2 <= n * ax_degree (d_a d) /\ apart eps (d_us d) /\
  match d_a d with
  | BezierAxis _ => True
  | KnotAxis p _ => spaced (inj (n * p - 1) * tol)%Qc (d_us d) /\ Forall (fun x => (qc (-1) 1 <= x)%Qc) (d_us d)
  end.
Lemma bumped_spec ms : 2 <= length ms -> length (bumped ms) = length ms /\ forall c, c < length ms -> nth c (bumped ms) 0 = if (c =? 0) || (c =? length ms - 1) then nth c ms 0 else S (nth c ms 0).
Proof.
  intros L. destruct ms as [|k ms]; [cbn in L; lia|]. cbn [bumped]. destruct ms as [|k' ms] using rev_ind; [cbn in L; lia|]. clear IHms.
  assert (match ms ++ [k'] with [] => [] | _ :: _ => map S (removelast (ms ++ [k'])) ++ [last (ms ++ [k']) 0] end = map S ms ++ [k']) as E.
  { rewrite removelast_last, last_last. destruct (ms ++ [k']) eqn:X; auto. destruct ms; discriminate X. }
  rewrite E. cbn [length]. rewrite !app_length, map_length. split; [reflexivity|]. intros c Hc. cbn [length] in *. destruct c as [|c]; [reflexivity|]. change (S c =? 0) with false. cbn [nth orb].
  destruct (Nat.eqb_spec (S c) (S (length ms + 1) - 1)) as [C|C].
  - rewrite !app_nth2 by (rewrite ?map_length; lia). rewrite map_length. reflexivity.
  - rewrite !app_nth1 by (rewrite ?map_length; lia). rewrite (nth_indep _ 0 (S 0)) by (rewrite map_length; lia). apply map_nth.
Qed.
Lemma tms_spec n p ms : 2 <= length ms -> length (tms n p ms) = length ms /\
  forall c, c < length ms -> nth c (tms n p ms) 0 = (if (c =? 0) || (c =? length ms - 1) then nth c ms 0 else S (nth c ms 0)) + n * p - p - 1.
Proof.
  intros L. destruct (bumped_spec ms L) as [B1 B2]. unfold tms. rewrite map_length. split; [auto|]. intros c Hc. rewrite <- B2 by auto.
  rewrite (nth_indep _ 0 ((fun k => k + n * p - p - 1) 0)) by (rewrite map_length; lia). apply (map_nth (fun k => k + n * p - p - 1)).
Qed.
Lemma tgt_degree n tol d : ax_degree (d_a (tgt n tol d)) = n * ax_degree (d_a d) - 1.
Proof. unfold tgt. cbn [d_a]. now destruct (d_a d). Qed.
Lemma tgt_form n eps tol d : 1 <= n -> src_ok n eps tol d -> dir_form (tgt n tol d) /\ Forall (fun k => k <= n * ax_degree (d_a d)) (d_ms (tgt n tol d)) /\
  forall c, 0 < c -> c < length (d_us d) - 1 -> n * ax_degree (d_a d) - mk (d_ms (tgt n tol d)) c = ax_degree (d_a d) - mk (d_ms d) c.
Proof.
  intros Hn ((SS & L & L2 & M0 & M1 & F & E) & In & Hd & _). set (p := ax_degree (d_a d)) in *. destruct (tms_spec n p (d_ms d) L2) as [T1 T2].
  assert (p <= n * p) as Hp by nia.
  assert (V : forall c, c < length (d_ms d) -> nth c (tms n p (d_ms d)) 0 = if (c =? 0) || (c =? length (d_ms d) - 1) then n * p else nth c (d_ms d) 0 + n * p - p).
  { intros c Hc. rewrite T2 by auto. destruct (Nat.eqb_spec c 0) as [->|C0]; cbn [orb]; [rewrite M0; lia|]. destruct (Nat.eqb_spec c (length (d_ms d) - 1)) as [->|C1]; [rewrite M1; lia|lia]. }
  unfold dir_form, axis_form. rewrite tgt_degree. fold p. unfold tgt. cbn [d_us d_ms d_a]. fold p. replace (n * p - 1 + 1) with (n * p) by lia. rewrite T1.
  assert (Forall (fun k => 0 < k /\ k <= n * p) (tms n p (d_ms d))) as G.
  { apply Forall_forall. intros k Hk. destruct (In_nth _ _ 0 Hk) as (c & Hc & <-). rewrite T1 in Hc. rewrite V by auto.
    destruct (Nat.eqb_spec c 0) as [->|C0]; cbn [orb]; [lia|]. destruct (Nat.eqb_spec c (length (d_ms d) - 1)) as [->|C1]; [lia|].
    specialize (In c ltac:(lia) ltac:(lia)). pose proof (proj1 (Forall_forall _ _) F _ (nth_In _ 0 Hc)) as X. cbv beta in X. lia. }
  repeat apply conj; auto.
  - rewrite V by lia. reflexivity.
  - rewrite V by lia. rewrite Nat.eqb_refl, orb_true_r. reflexivity.
  - eapply Forall_impl; [|exact G]. cbn. lia.
  - destruct (d_a d); auto.
  - eapply Forall_impl; [|exact G]. cbn. lia.
  - intros c C1 C2. unfold mk. rewrite V by lia. destruct (Nat.eqb_spec c 0); [lia|]. destruct (Nat.eqb_spec c (length (d_ms d) - 1)); [lia|]. cbn [orb]. specialize (In c ltac:(lia) ltac:(lia)). lia.
Qed.
Lemma tgt_ok n eps tol d : 1 <= n -> (0 < tol)%Qc -> src_ok n eps tol d -> dir_ok (tgt n tol d) /\ greville (d_a (tgt n tol d)) tol = Some (d_g (tgt n tol d)).
Proof.
  intros Hn Ht S. destruct (tgt_form n eps tol d Hn S) as (W & M & _). pose proof S as (_ & _ & Hd & _ & G).
  destruct (greville_placed (d_a (tgt n tol d)) (d_us (tgt n tol d)) (d_ms (tgt n tol d)) tol) as (gl & E & L & P); auto.
  - rewrite tgt_degree. lia.
  - rewrite tgt_degree. replace (n * ax_degree (d_a d) - 1 + 1) with (n * ax_degree (d_a d)) by lia. exact M.
  - rewrite tgt_degree. destruct (d_a d) as [p|p kv] eqn:Ea; [right; unfold tgt; cbn [d_a]; rewrite Ea; eauto|left]. intros c Hc. apply G. exact Hc.
  - assert (d_g (tgt n tol d) = gl) as Eg by (unfold tgt in *; cbn [d_a d_g] in *; now rewrite E). rewrite Eg. split; auto. unfold dir_ok. rewrite Eg. split; [exact W|]. split; [|auto].
    rewrite tgt_degree. replace (n * ax_degree (d_a d) - 1 + 1) with (n * ax_degree (d_a d)) by lia. exact M.
Qed.

(** * The spline to be filled *)
Lemma det_knots_ok n eps tol d : 1 <= n -> (0 < eps)%Qc -> src_ok n eps tol d -> det_knots eps n (d_a d) = Some (expand_knots (d_us d) (tms n (ax_degree (d_a d)) (d_ms d))) \/ exists p, d_a d = BezierAxis p.
Proof.
  intros Hn He ((SS & L & L2 & M0 & M1 & F & E) & _ & Hd & A & _). destruct (d_a d) as [p|p kv] eqn:Ea; [right; eauto|left]. cbn [ax_degree] in *.
  unfold det_knots. rewrite (axis_unique_knots eps _ (d_us d) He).
  2:{ split; auto. exists (d_ms d). repeat split; auto. } 2:{ exact A. }
  cbn [axis_multiplicities]. assert (run_lengths (near eps) kv = d_ms d) as -> by (rewrite E; now apply run_lengths_expand).
  destruct (bumped_spec (d_ms d) L2) as [B1 B2]. set (f := fun k => (Z.of_nat k + (det_degree n (KnotAxis p kv) - Z.of_nat (ax_degree (KnotAxis p kv))))%Z).
  assert (forall k, In k (bumped (d_ms d)) -> f k = Z.of_nat (k + n * p - p - 1) /\ (0 <= f k)%Z) as Ef.
  { intros k Hk. assert (1 <= k) as K1.
    { destruct (In_nth _ _ 0 Hk) as (c & Hc & <-). rewrite B1 in Hc. rewrite B2 by auto. destruct ((c =? 0) || (c =? length (d_ms d) - 1)); [|lia]. apply (proj1 (Forall_forall _ _) F). now apply nth_In. }
    assert (p <= n * p) by nia. unfold f, det_degree. cbn [ax_degree]. nia. }
  replace (length (d_us d) =? length (map f (bumped (d_ms d)))) with true by (symmetry; apply Nat.eqb_eq; rewrite map_length, B1; exact L).
  replace (forallb (fun k => (0 <=? k)%Z) (map f (bumped (d_ms d)))) with true.
  2:{ symmetry. apply forallb_forall. intros k Hk. apply in_map_iff in Hk as (j & <- & Hj). apply Z.leb_le. now apply Ef. }
  cbn [andb]. f_equal. unfold expand_knots, tms. rewrite flat_map_concat_map. f_equal. clear - Ef. revert Ef. generalize (bumped (d_ms d)) as ms. generalize (d_us d) as us.
  induction us as [|x us IH]; intros [|k ms] Ef; auto. cbn [map combine fst snd]. f_equal; [|apply IH; intros j Hj; apply Ef; now right].
  f_equal. destruct (Ef k) as [-> _]; [now left|]. apply Nat2Z.id.
Qed.
Lemma form_len d : dir_form d -> 2 * (ax_degree (d_a d) + 1) <= match d_a d with BezierAxis p => 2 * (p + 1) | KnotAxis _ kv => length kv end /\ 0 < ax_n (d_a d).
Proof.
  intros W. pose proof W as (SS & L & L2 & M0 & M1 & F & E). destruct (d_a d) as [p|p kv] eqn:Ea; cbn [ax_degree ax_n] in *; [lia|].
  pose proof (axis_knot_vector p kv (d_us d)) as KV. assert (axis_knots (KnotAxis p kv) (d_us d)) as K by (apply (form_knots _ _ (d_ms d)); rewrite <- Ea; rewrite Ea; repeat split; auto).
  destruct (KV K) as (LK & MK & HK). cbn [ax_n] in *. assert (p < length kv - p - 1) as X; [|lia].
  destruct (le_lt_dec (length kv - p - 1) p); [|lia]. exfalso. apply (Qclt_not_le _ _ HK). rewrite !(kn_nth _ _ 0%Qc) by lia. apply MK; lia.
Qed.
Lemma rows_count l : Forall dir_form l -> forall b : bool, Forall (fun d => match d_a d with BezierAxis _ => b = false | KnotAxis _ _ => b = true end) l ->
  let kvs := map (fun d => match d_a d with BezierAxis _ => [] | KnotAxis _ kv => kv end) l in
  let degs := map (fun d => Z.of_nat (ax_degree (d_a d))) l in
  wanted degs (if b then Some kvs else None) = Z.of_nat (prodn (map ax_n (map d_a l))) /\
  (if b then fold_right Z.mul 1%Z (map (fun kd => (Z.of_nat (length (fst kd)) - snd kd - 1)%Z) (combine kvs degs)) else fold_right Z.mul 1%Z (map (fun d => (d + 1)%Z) degs)) = Z.of_nat (prodn (map ax_n (map d_a l))) /\
  make_axes degs (if b then Some kvs else None) = map d_a l /\
  (if b then Forall2 knots_fit degs kvs else Forall (fun d => (0 <= d)%Z) degs).
Proof.
  intros Fl b. induction Fl as [|d l Fd Fl IH]; intros K; [destruct b; cbn; auto|]. inversion_clear K as [|? ? Kd K']. specialize (IH K'). pose proof (form_len d Fd) as [LL NN].
  destruct (d_a d) as [p|p kv] eqn:Ea; subst b; cbn [map] in *; rewrite Ea; cbn [ax_degree ax_n] in *; destruct IH as (A & B & C & D).
  - cbn [wanted fold_right map make_axes prodn]. rewrite A, B, C, Nat2Z.id. repeat apply conj; auto; try nia. constructor; auto. lia.
  - cbn [wanted combine fold_right map make_axes prodn hd tl fst snd]. rewrite A, B, C, Nat2Z.id. repeat apply conj; auto; try nia. constructor; auto. split; [lia|]. split; [|lia].
    pose proof Fd as (SS & L & _ & _ & _ & F & E). rewrite Ea in E. rewrite E. apply expand_sorted. auto.
Qed.
Lemma template_ok limit n eps tol l cps ws : 1 <= n -> n = length l -> n <= limit -> 1 <= limit -> (0 < eps)%Qc -> dim_of cps = n -> Forall (src_ok n eps tol) l -> one_kind (map d_a l) ->
  det_template limit eps (Spl (map d_a l) cps ws) = Some (Spl (map d_a (map (tgt n tol) l)) (repeat [0%Qc] (prodn (map ax_n (map d_a (map (tgt n tol) l))))) None).
Proof.
  intros Hn El Hl Hl1 He Hdim S OK. set (T := map (tgt n tol) l).
  assert (Forall dir_form T) as FT by (apply Forall_map; eapply Forall_impl; [|exact S]; intros d Sd; now apply (tgt_form n eps tol d)).
  set (b := match l with d :: _ => match d_a d with BezierAxis _ => false | _ => true end | [] => true end).
  assert (Forall (fun d => match d_a d with BezierAxis _ => b = false | KnotAxis _ _ => b = true end) l) as Kl.
  { apply Forall_forall. intros d Hd. destruct l as [|d0 l0]; [destruct Hd|]. unfold b. destruct OK as [O|O].
    - destruct (O (d_a d)) as (p & ->); [now apply in_map|]. destruct (O (d_a d0)) as (p' & ->); [now left|]. reflexivity.
    - destruct (O (d_a d)) as (p & kv & ->); [now apply in_map|]. destruct (O (d_a d0)) as (p' & kv' & ->); [now left|]. reflexivity. }
  assert (Forall (fun d => match d_a d with BezierAxis _ => b = false | KnotAxis _ _ => b = true end) T) as KT.
  { apply Forall_map. eapply Forall_impl; [|exact Kl]. intros d. unfold tgt. cbn [d_a]. now destruct (d_a d). }
  destruct (rows_count T FT b KT) as (R1 & R2 & R3 & R4). set (N := prodn (map ax_n (map d_a T))) in *.
  set (kvs := map (fun d => match d_a d with BezierAxis _ => [] | KnotAxis _ kv => kv end) T) in *. set (degs := map (fun d => Z.of_nat (ax_degree (d_a d))) T) in *.
  assert (map (det_degree n) (map d_a l) = degs) as Edeg.
  { unfold degs, T. rewrite !map_map. apply map_ext_in. intros d Hd. rewrite tgt_degree. unfold det_degree. pose proof (proj1 (Forall_forall _ _) S d Hd) as (_ & _ & X & _). nia. }
  assert (Ekind : has_knot_vectors (Spl (map d_a l) cps ws) = b). { unfold has_knot_vectors, b. cbn [sp_axes]. destruct l as [|d l0]; [reflexivity|]. cbn [map]. now destruct (d_a d). }
  assert (forall c i, complete c i degs (if b then Some kvs else None) (repeat [0%Qc] N) None -> match construct limit c i with Done st => s_core st | Raised _ => None end = Some (Spl (map d_a T) (repeat [0%Qc] N) None)) as Made.
  { intros c i Cm. assert (consistent degs (if b then Some kvs else None) (repeat [0%Qc] N) None) as Cs.
    { split; [unfold degs, T; destruct l; [cbn in El; lia|discriminate]|]. split; [destruct b; exact R4|]. split; [exists 1; split; [lia|]; apply Forall_forall; intros x Hx; apply repeat_spec in Hx; now subst x|]. split; [rewrite repeat_length; now symmetry|exact I]. }
    destruct (construct_accepts limit c i degs _ _ None Cm (Spl (map d_a T) (repeat [0%Qc] N) None)) as [_ B]. destruct B as (st & E & Es).
    - split; [exact Cs|]. split.
      + split; [unfold degs, T; rewrite !map_length; lia|]. destruct b.
        * apply Forall_map. apply Forall_map. rewrite Forall_forall in S, Kl |- *. intros d Hd. specialize (S d Hd). specialize (Kl d Hd). destruct S as ((_ & L & L2 & _) & _ & _ & _ & G). unfold tgt. cbn [d_a].
          destruct (d_a d) as [p|p kv]; [discriminate Kl|]. destruct G as [_ G]. cbn [ax_degree]. apply Forall_forall. intros x Hx. unfold expand_knots in Hx. apply in_concat in Hx as (y & Hy & Hx). apply in_map_iff in Hy as ([u k] & <- & Hu). apply repeat_spec in Hx. subst x. cbn [fst] in *.
          apply in_combine_l in Hu. now apply (proj1 (Forall_forall _ _) G).
        * apply Forall_forall. intros x Hx. apply repeat_spec in Hx. now subst x.
      + rewrite <- R3. now apply new_core_properties.
    - now rewrite E. }
  unfold det_template. cbn [sp_axes sp_cps]. rewrite Hdim, Edeg, Ekind. destruct b eqn:Eb.
  - assert (all_some (map (det_knots eps n) (map d_a l)) = Some kvs) as ->.
    { unfold kvs, T. clear - S Kl He Hn. rewrite !map_map. induction l as [|d l IH]; [reflexivity|]. inversion_clear S as [|? ? S1 S2]. inversion_clear Kl as [|? ? K1 K2]. cbn [map all_some].
      destruct (det_knots_ok n eps tol d Hn He S1) as [->|(p & Ep)]; [|rewrite Ep in K1; discriminate K1]. rewrite (IH S2 K2). f_equal. f_equal. unfold tgt. cbn [d_a]. destruct (d_a d); [discriminate K1|reflexivity]. }
    cbv zeta. rewrite R2. destruct (Z.ltb_spec (Z.of_nat N) 0); [lia|]. rewrite Nat2Z.id. apply Made. repeat split; auto; discriminate.
  - cbv zeta. rewrite R2. destruct (Z.ltb_spec (Z.of_nat N) 0); [lia|]. rewrite Nat2Z.id. apply Made. repeat split; auto.
Qed.

(** * The linear system *)
Lemma basis_row_length axes : forall u, length u = length axes -> length (basis_row axes u) = prodn (map ax_n axes).
Proof.
  induction axes as [|a axes IH]; intros [|x u] L; try discriminate L; [reflexivity|]. injection L as L. cbn [basis_row map prodn]. rewrite <- (IH u L). generalize (basis_row axes u) as bs.
  induction bs as [|b bs IHb]; cbn [flat_map length]; [lia|]. rewrite app_length, map_length, seq_length, IHb. lia.
Qed.
Lemma basis_row_weight axes : forall u k, length u = length axes -> k < prodn (map ax_n axes) -> nth k (basis_row axes u) 0%Qc = weight (sp_basis axes u) (digits (map ax_n axes) k).
Proof.
  induction axes as [|a axes IH]; intros [|x u] k L Hk; try discriminate L; [cbn [map prodn] in Hk; replace k with 0 by lia; reflexivity|]. injection L as L. cbn [map prodn] in Hk.
  cbn [basis_row]. rewrite flat_map_concat_map. assert (0 < ax_n a) as Ha by nia. rewrite (Nat.div_mod k (ax_n a)) at 1 by lia. rewrite Nat.add_comm.
  assert (k / ax_n a < prodn (map ax_n axes)) as Hq by (apply Nat.div_lt_upper_bound; lia). pose proof (Nat.mod_upper_bound k (ax_n a) ltac:(lia)) as Hm.
  rewrite nth_concat; auto.
  2:{ apply Forall_map, Forall_forall. intros b _. now rewrite map_length, seq_length. }
  set (f := fun b => map (fun i => (ax_fun a x i * b)%Qc) (seq 0 (ax_n a))). rewrite (nth_indep _ [] (f 0%Qc)) by (rewrite map_length, basis_row_length; auto). rewrite (map_nth f). unfold f.
  set (g := fun i => (ax_fun a x i * nth (k / ax_n a) (basis_row axes u) 0)%Qc). rewrite (nth_indep _ 0%Qc (g 0)) by (now rewrite map_length, seq_length). rewrite (map_nth g), seq_nth by auto. unfold g. cbn [Nat.add].
  unfold sp_basis. cbn [map combine fst snd digits weight]. f_equal. now apply IH.
Qed.
Lemma row_value axes u f : length u = length axes -> tensor (sp_basis axes u) (fun ix => f (flat_id (map ax_n axes) ix)) = qsum (map (fun k => nth k (basis_row axes u) 0 * f k)%Qc (seq 0 (prodn (map ax_n axes)))).
Proof.
  intros L. assert (map fst (sp_basis axes u) = map ax_n axes) as E. { unfold sp_basis. rewrite map_map. cbn [fst]. revert u L. induction axes as [|a axes IH]; intros [|x u] L; try discriminate L; [reflexivity|]. cbn [combine map fst]. f_equal. apply IH. now injection L. }
  pose proof (tensor_flat (sp_basis axes u) f) as X. rewrite E in X. rewrite X. apply qsum_ext. intros k Hk. apply in_seq in Hk. now rewrite basis_row_weight by (auto; lia).
Qed.
Lemma grid_queries l : l <> [] -> exists qs, cartesian_product (map d_g l) true = Some qs /\ length qs = prodn (map (fun d => length (d_g d)) l) /\ forall u, In u qs <-> on_grid l u.
Proof.
  intros N. eexists. split; [apply (cartesian_product_spec 0%Qc); destruct l; [contradiction|discriminate]|]. rewrite map_length, length_f_indices, map_map. split; [reflexivity|]. intros u. rewrite in_map_iff. split.
  - intros (ix & <- & Hx). apply in_f_indices in Hx. rewrite <- (map_map d_g (@length Qc)) in Hx. clear N. revert ix Hx. induction l as [|d l IH]; intros ix Hx; inversion Hx; subst; [constructor|]. cbn [map]. unfold select. cbn [combine map fst snd]. constructor; [now apply nth_In|]. now apply IH.
  - intros G. clear N. induction G as [|d x l u Hx G (ix & <- & Hi)]; [exists []; split; [reflexivity|apply in_f_indices; constructor]|].
    destruct (In_nth _ _ 0%Qc Hx) as (k & Hk & <-). exists (k :: ix). split; [reflexivity|]. apply in_f_indices. constructor; auto. now apply in_f_indices in Hi.
Qed.
Lemma on_grid_length l u : on_grid l u -> length u = length l.
Proof. induction 1; cbn; auto. Qed.
Lemma matrix_regular l qs : Forall dir_ok l -> (forall u, In u qs <-> on_grid l u) -> length qs = prodn (map ax_n (map d_a l)) -> ~ singular (map (basis_row (map d_a l)) qs).
Proof.
  intros F Q L (v & [Lv Sv] & k & Hk & Nk). rewrite map_length in *. apply Nk.
  set (axes := map d_a l) in *. set (N := prodn (map ax_n axes)) in *.
  assert (valid_digits (map ax_n axes) (digits (map ax_n axes) k)) as Hv. { apply in_f_indices. unfold f_indices. apply in_map. apply in_seq. fold N. lia. }
  replace (nth k v 0%Qc) with (nth (flat_id (map ax_n axes) (digits (map ax_n axes) k)) v 0%Qc).
  2:{ rewrite flat_id_undigits by apply length_digits. rewrite undigits_digits; auto. fold N. lia. }
  apply (tensor_unisolvent l F (fun ix => nth (flat_id (map ax_n axes) ix) v 0%Qc)); auto. intros u Hu. fold axes.
  assert (length u = length axes) as Lu by (unfold axes; rewrite map_length; now apply on_grid_length).
  rewrite (row_value axes u (fun k => nth k v 0%Qc)) by auto. apply Q in Hu. destruct (In_nth _ _ [] Hu) as (r & Hr & Er). specialize (Sv r Hr). unfold row_times, entry in Sv. rewrite map_length in Sv.
  rewrite L in Sv. fold N in Sv. rewrite (nth_indep _ [] (basis_row axes [])) in Sv by (now rewrite map_length). rewrite map_nth, Er in Sv. etransitivity; [exact Sv|]. now destruct r.
Qed.

(** * The determinant is in the space of the result *)
Lemma det_in_space n eps tol l cps : 1 <= n -> n = length l -> Forall (src_ok n eps tol) l ->
  tclass d_us (fun d c => ax_degree (d_a d) + 1 - mk (d_ms d) c) (fun d => ax_degree (d_a d)) (map (tgt n tol) l) (fun u => det n (fun i j => sp_deriv (Spl (map d_a l) cps None) j u i)).
Proof.
  intros Hn El S.
  apply (tclass_transfer (fun kd : nat * dir => d_us (snd kd)) (fun kd c => ax_degree (d_a (snd kd)) + 0 - mk (d_ms (snd kd)) c)
    (fun kd => list_sum (map (fun j => if fst kd =? j then ax_degree (d_a (snd kd)) - 1 else ax_degree (d_a (snd kd))) (seq 0 n))) d_us _ _ (combine (seq 0 (length l)) l)).
  - rewrite <- El. match goal with |- Forall2 ?R _ _ => set (R0 := R) end. assert (forall k, In k (seq 0 n) -> k < n) as B by (intros k Hk; apply in_seq in Hk; lia). revert B. assert (length (seq 0 n) = length l) as L by (now rewrite seq_length). revert L. generalize (seq 0 n) as ks. clear - S Hn R0.
    induction S as [|d l S1 S2 IH]; intros [|k ks] L B; try discriminate L; [constructor|]; constructor; [|apply IH; [now injection L|intros j Hj; apply B; now right]]. unfold R0. cbn [fst snd]. destruct (tgt_form n eps tol d Hn S1) as (_ & _ & T). pose proof S1 as (_ & _ & H2 & _). rewrite tgt_degree.
    split; [reflexivity|]. split; [rewrite column_degrees by (apply B; now left); lia|]. intros c C1 C2. replace (n * ax_degree (d_a d) - 1 + 1) with (n * ax_degree (d_a d)) by lia. rewrite T by auto. lia.
  - apply (tclass_det _ _ _ n (fun j kd => if fst kd =? j then ax_degree (d_a (snd kd)) - 1 else ax_degree (d_a (snd kd))) (fun i j u => sp_deriv (Spl (map d_a l) cps None) j u i)).
    intros i j Hi Hj. unfold sp_deriv. cbn [sp_weights sp_axes]. unfold sp_dbasis.
    apply (tensor_class (fun k => k =? j) 0 l); [eapply Forall_impl; [|exact S]; intros d Sd; apply Sd|lia|lia].
Qed.
Lemma value_in_space l cps : Forall dir_form l ->
  tclass d_us (fun d c => ax_degree (d_a d) + 1 - mk (d_ms d) c) (fun d => ax_degree (d_a d)) l (fun u => sp_value (Spl (map d_a l) cps None) u 0).
Proof.
  intros F. unfold sp_value. cbn [sp_weights sp_axes].
  apply (tclass_ext d_us _ _ l (fun u => tensor (functions (fun _ => false) 0 (map d_a l) u) (net (sp_res (Spl (map d_a l) cps None)) cps 0))); [intros u; now rewrite functions_value|].
  apply (tclass_transfer (fun kd : nat * dir => d_us (snd kd)) (fun kd c => ax_degree (d_a (snd kd)) + 1 - mk (d_ms (snd kd)) c) (fun kd => ax_degree (d_a (snd kd))) d_us _ _ (combine (seq 0 (length l)) l)).
  - clear F. match goal with |- Forall2 ?R _ _ => set (R0 := R) end. generalize 0. induction l as [|d l IH]; intros k; [constructor|]. constructor; [|apply IH]. unfold R0. cbn [snd]. auto.
  - apply (tensor_class (fun _ => false) 1 l F); auto.
Qed.
Theorem determinant_exact solve limit n eps tol l cps : linear_solver solve -> 1 <= n -> n = length l -> n <= limit -> (0 < eps)%Qc -> (0 < tol)%Qc -> dim_of cps = n ->
  Forall (src_ok n eps tol) l -> one_kind (map d_a l) ->
  let s := Spl (map d_a l) cps None in
  exists cps', determinant_spline solve limit eps tol s = Determinant (Spl (map d_a (map (tgt n tol) l)) cps' None) /\ length cps' = prodn (map ax_n (map d_a (map (tgt n tol) l))) /\
    Forall (fun p => length p = 1) cps' /\
    forall u, in_box l u -> sp_value (Spl (map d_a (map (tgt n tol) l)) cps' None) u 0 = jacobian_determinant s u.
Proof.
  intros Sol Hn El Hl He Ht Hdim S OK s. set (T := map (tgt n tol) l).
  assert (Forall dir_ok T) as FT by (apply Forall_map; eapply Forall_impl; [|exact S]; intros d Sd; now apply (tgt_ok n eps tol d)).
  assert (T <> []) as NT by (unfold T; destruct l; [cbn in El; lia|discriminate]).
  destruct (grid_queries T NT) as (qs & Eq & Lq & Q).
  assert (length qs = prodn (map ax_n (map d_a T))) as Lq'. { rewrite Lq, map_map. f_equal. apply map_ext_in. intros d Hd. now apply (proj1 (Forall_forall _ _) FT d Hd). }
  set (J := fun u => det n (fun d j => sp_deriv s j u d)). set (x := solve (map (basis_row (map d_a T)) qs) (map J qs)).
  assert (Gr : forall u, on_grid T u -> length u = length (map d_a T)) by (intros u Hu; rewrite map_length; now apply on_grid_length).
  assert (solves (map (basis_row (map d_a T)) qs) (map J qs) x) as [Lx Sx].
  { apply Sol; [|now rewrite !map_length|now apply matrix_regular].
    apply Forall_map, Forall_forall. intros u Hu. rewrite map_length, Lq'. apply basis_row_length. apply Gr, Q, Hu. }
  rewrite map_length in Lx, Sx. exists (map (fun y => [y]) x). split; [|split; [|split]].
  - unfold determinant_spline, s. cbn [sp_axes sp_cps]. rewrite map_length, Hdim, <- El, Nat.eqb_refl. cbn [negb]. rewrite (template_ok limit n eps tol l cps None) by (auto; lia). fold T. cbn [sp_axes sp_weights].
    assert (all_some (map (fun a => greville a tol) (map d_a T)) = Some (map d_g T)) as ->.
    { unfold T. clear - S Hn Ht. induction S as [|d l S1 S2 IH]; [reflexivity|]. cbn [map all_some]. destruct (tgt_ok n eps tol d Hn Ht S1) as [_ ->]. now rewrite IH. }
    rewrite Eq. reflexivity.
  - rewrite map_length. congruence.
  - apply Forall_map, Forall_forall. reflexivity.
  - set (s' := Spl (map d_a T) (map (fun y => [y]) x) None).
    assert (forall u, on_grid T u -> sp_value s' u 0 = J u) as V.
    { intros u Hu. pose proof (Gr u Hu) as Lu. unfold sp_value, s'. cbn [sp_weights sp_axes sp_cps]. etransitivity; [exact (row_value (map d_a T) u (fun k => nth 0 (nth k (map (fun y => [y]) x) []) 0%Qc) Lu)|].
      apply Q in Hu. destruct (In_nth _ _ [] Hu) as (r & Hr & Er). specialize (Sx r Hr). unfold row_times, entry in Sx. rewrite map_length, Lq' in Sx.
      rewrite (nth_indep _ [] (basis_row (map d_a T) [])) in Sx by (now rewrite map_length). rewrite map_nth, Er in Sx. rewrite (nth_indep _ 0%Qc (J [])) in Sx by (now rewrite map_length). rewrite map_nth, Er in Sx. rewrite <- Sx.
      apply qsum_ext. intros k Hk. apply in_seq in Hk. f_equal. rewrite (nth_indep _ [] [0%Qc]) by (rewrite map_length, Lx, Lq'; lia). now rewrite (map_nth (fun y => [y])). }
    intros u Hu. fold T s'. unfold jacobian_determinant, s. cbn [sp_axes]. rewrite map_length, <- El. fold s. change (sp_value s' u 0 = J u).
    assert (sp_value s' u 0 + - (1) * J u = 0)%Qc as Z.
    { apply (tensor_vanish T FT (fun u => sp_value s' u 0 + - (1) * J u)%Qc).
      - apply tclass_add; [apply value_in_space; eapply Forall_impl; [|exact FT]; intros d D; apply D|]. apply tclass_scale. now apply (det_in_space n eps tol l cps).
      - intros v Hv. rewrite V by auto. ring.
      - clear - Hu. unfold T, in_box in *. induction Hu; constructor; auto. }
    clear - Z. replace (sp_value s' u 0) with ((sp_value s' u 0 + - (1) * J u) + J u)%Qc by ring. rewrite Z. ring.
Qed.

(** * Equal weights *)
Lemma dfun_sum a u : ax_wf a -> ax_domain a u -> qsum (map (ax_dfun a u) (seq 0 (ax_n a))) = 0%Qc.
Proof.
  intros W D. assert (forall (f g : nat -> Qc -> Qc) n, (forall i, i < n -> der (f i) u (g i u)) -> (forall y, qsum (map (fun i => f i y) (seq 0 n)) = 1%Qc) -> qsum (map (fun i => g i u) (seq 0 n)) = 0%Qc) as G.
  { intros f g n H1 H2. apply (deriv_unique (fun y => qsum (map (fun i => f i y) (seq 0 n))) (fun _ => 1%Qc) u _ _ 1%Qc); [reflexivity|intros y _; apply H2| |apply der_is_deriv, der_const].
    apply der_is_deriv. apply (der_sum (seq 0 n) f (fun i => g i u)). intros i Hi. apply in_seq in Hi. apply H1. lia. }
  destruct a as [p|p kv].
  - apply (G (fun i y => bernstein p i y) (fun i y => dbernstein p i y)); [intros; apply bernstein_der|intros y; apply bernstein_sum].
  - cbn [ax_wf ax_domain ax_lower ax_upper] in *. destruct (find_span_spec kv p _ u W D) as (A & B & C & _). set (sp0 := find_span _ _ _ _) in *.
    apply (G (fun i y => basis (kn kv) sp0 p i y) (fun i y => dbasis (kn kv) sp0 p i y)); [intros; apply basis_der|]. intros y.
    erewrite qsum_ext; [|intros i _; apply basis_blossom]. apply (blossom_sum (kn kv) _ (repeat y p)); auto.
    + apply kn_mono, W. + now rewrite repeat_length.
Qed.
Lemma dbasis_ones axes us j : Forall ax_wf axes -> Forall2 ax_domain axes us -> j < length us -> tensor (sp_dbasis axes j us) (fun _ => 1%Qc) = 0%Qc.
Proof.
  intros W D Hj. assert (length axes = length us) as L by (clear - D; induction D; cbn; auto). rewrite dbasis_split by auto. rewrite tensor_axis.
  set (c := tensor _ (fun _ => 1%Qc)). rewrite qsum_map_mul_r.
  assert (ax_wf (nth j axes (BezierAxis 0)) /\ ax_domain (nth j axes (BezierAxis 0)) (nth j us 0%Qc)) as [W1 D1].
  { clear c L. revert j Hj. induction D as [|a x axes us Da D IH]; intros j Hj; [cbn in Hj; lia|]. inversion_clear W. destruct j as [|j]; [auto|]. cbn [nth]. apply IH; auto. cbn in Hj. lia. }
  rewrite dfun_sum by auto. ring.
Qed.
Lemma basis_ones axes us : Forall ax_wf axes -> Forall2 ax_domain axes us -> tensor (sp_basis axes us) (fun _ => 1%Qc) = 1%Qc.
Proof.
  intros W D. apply tensor_one. induction D as [|a x axes us Da D IH]; [constructor|]. inversion_clear W. unfold sp_basis. cbn [combine map]. constructor; [now apply ax_fun_sum|now apply IH].
Qed.
Lemma equal_deriv axes cps ws w us j d : Forall ax_wf axes -> Forall2 ax_domain axes us -> j < length us -> w <> 0%Qc -> length ws = prodn (map ax_n axes) -> Forall (eq w) ws ->
  sp_deriv (Spl axes cps (Some ws)) j us d = sp_deriv (Spl axes cps None) j us d.
Proof.
  intros W D Hj Hw Lw Ew. assert (length axes = length us) as L by (clear - D; induction D; cbn; auto).
  assert (forall ix, valid_digits (map ax_n axes) ix -> nth (flat_id (map ax_n axes) ix) ws 0%Qc = w) as V.
  { intros ix Hx. symmetry. apply (proj1 (Forall_forall _ _) Ew). apply nth_In. rewrite Lw. rewrite flat_id_undigits by (now apply BaseRadix.valid_length in Hx). now apply undigits_lt. }
  assert (B1 : map fst (sp_basis axes us) = map ax_n axes). { unfold sp_basis. rewrite map_map. cbn [fst]. clear - L. revert us L. induction axes as [|a axes IH]; intros [|x u] L; try discriminate L; [reflexivity|]. cbn [combine map fst]. f_equal. apply IH. now injection L. }
  assert (B2 : map fst (sp_dbasis axes j us) = map ax_n axes). { unfold sp_dbasis. rewrite map_map. clear - L. generalize 0. revert us L. induction axes as [|a axes IH]; intros [|x u] L k; try discriminate L; [reflexivity|]. cbn [length seq combine map fst]. f_equal. apply IH. now injection L. }
  unfold sp_deriv. cbn [sp_axes sp_cps sp_weights]. unfold sp_res. cbn [sp_axes]. cbv zeta. set (P := net (map ax_n axes) cps d).
  assert (forall ws', map fst ws' = map ax_n axes -> tensor ws' (fun ix => nth (flat_id (map ax_n axes) ix) ws 0 * P ix)%Qc = (w * tensor ws' P)%Qc /\ tensor ws' (fun ix => nth (flat_id (map ax_n axes) ix) ws 0%Qc) = (w * tensor ws' (fun _ => 1))%Qc) as T.
  { intros ws' E. split; rewrite <- tensor_mul_l; apply tensor_ext_c; intros ix Hx; rewrite E in Hx; rewrite V by auto; ring. }
  destruct (T _ B1) as [T1 T2], (T _ B2) as [T3 T4]. rewrite T1, T2, T3, T4, basis_ones, dbasis_ones by auto. clear - Hw. rewrite !Qcmult_0_r. field. exact Hw.
Qed.
Lemma same_determinant solve limit n eps tol l cps ws : 1 <= n -> n = length l -> n <= limit -> (0 < eps)%Qc -> (0 < tol)%Qc -> dim_of cps = n ->
  Forall (src_ok n eps tol) l -> one_kind (map d_a l) -> (forall u i j, in_box l u -> i < n -> j < n -> sp_deriv (Spl (map d_a l) cps ws) j u i = sp_deriv (Spl (map d_a l) cps None) j u i) ->
  determinant_spline solve limit eps tol (Spl (map d_a l) cps ws) = determinant_spline solve limit eps tol (Spl (map d_a l) cps None).
Proof.
  intros Hn El Hl He Ht Hdim S OK Eq. unfold determinant_spline. cbn [sp_axes sp_cps]. rewrite map_length, Hdim, <- El, Nat.eqb_refl. cbn [negb].
  rewrite !(template_ok limit n eps tol l cps) by (auto; lia). set (T := map (tgt n tol) l). cbn [sp_axes sp_weights].
  assert (all_some (map (fun a => greville a tol) (map d_a T)) = Some (map d_g T)) as ->.
  { unfold T. clear - S Hn Ht. induction S as [|d l S1 S2 IH]; [reflexivity|]. cbn [map all_some]. destruct (tgt_ok n eps tol d Hn Ht S1) as [_ ->]. now rewrite IH. }
  assert (T <> []) as NT by (unfold T; destruct l; [cbn in El; lia|discriminate]). destruct (grid_queries T NT) as (qs & -> & _ & Q).
  assert (map (fun u => det n (fun d j => sp_deriv (Spl (map d_a l) cps ws) j u d)) qs = map (fun u => det n (fun d j => sp_deriv (Spl (map d_a l) cps None) j u d)) qs) as ->; [|reflexivity].
  apply map_ext_in. intros u Hu. apply det_ext. intros i j Hi Hj. apply Eq; auto. apply Q in Hu. unfold T in Hu. clear - Hu S Hn Ht. revert u Hu.
  induction S as [|d l S1 S2 IH]; intros u Hu; inversion Hu; subst; constructor; [|now apply IH].
  destruct (tgt_ok n eps tol d Hn Ht S1) as [(_ & _ & Lg & _ & P2 & _) _]. destruct (In_nth _ _ 0%Qc H1) as (k & Hk & <-). destruct (tgt_form n eps tol d Hn S1) as (W & _). pose proof (form_count _ _ _ W) as C. apply P2. lia.
Qed.

(** * From axes and knots to directions *)
Lemma sampled_src n eps tol a us : sampled_axis n eps tol a us -> exists d, d_a d = a /\ d_us d = us /\ src_ok n eps tol d.
Proof.
  intros ((SS & E) & H2 & A & K). destruct a as [p|p kv].
  - exists (Dir (BezierAxis p) us [p + 1; p + 1] []). split; [reflexivity|]. split; [reflexivity|]. subst us. unfold src_ok, dir_form, axis_form. cbn [d_a d_us d_ms ax_degree] in *. repeat apply conj; auto.
    + repeat constructor; lia. + cbn [length]. lia.
  - destruct E as (m & E & L & L2 & M0 & M1 & F & I). exists (Dir (KnotAxis p kv) us m []). split; [reflexivity|]. split; [reflexivity|]. unfold src_ok, dir_form, axis_form. cbn [d_a d_us d_ms ax_degree] in *. repeat apply conj; auto; apply K.
Qed.
Lemma sampled_dirs n eps tol axes knots : Forall2 (sampled_axis n eps tol) axes knots -> exists l, map d_a l = axes /\ map d_us l = knots /\ Forall (src_ok n eps tol) l.
Proof.
  induction 1 as [|a us axes knots H K (l & <- & <- & S)]; [exists []; auto|]. destruct (sampled_src n eps tol a us H) as (d & <- & <- & Sd). exists (d :: l). auto.
Qed.
Lemma form_domain d x : dir_form d -> ax_domain (d_a d) x <-> (zk (d_us d) 0 <= x)%Qc /\ (x <= zk (d_us d) (length (d_us d) - 1))%Qc.
Proof. intros W. destruct (axis_bounds _ _ (form_knots _ _ _ W)) as (_ & L & U). unfold ax_domain. rewrite L, U. reflexivity. Qed.
Lemma box_domain l u : Forall dir_form l -> Forall2 ax_domain (map d_a l) u <-> in_box l u.
Proof.
  intros F. revert u. induction F as [|d l Fd F IH]; intros u; [split; intros H; inversion H; constructor|]. cbn [map]. split; intros H; inversion H as [|? y ? u' H1 H2]; subst.
  - constructor; [now apply (form_domain d)|now apply IH].
  - constructor; [now apply (form_domain d)|now apply IH].
Qed.
Lemma forms_wf l : Forall dir_form l -> Forall ax_wf (map d_a l).
Proof. intros F. apply Forall_map. eapply Forall_impl; [|exact F]. intros d W. apply (knots_wf _ _ (form_knots _ _ _ W)). Qed.

Theorem determinant_spline_exact solve limit eps tol s knots : linear_solver solve -> sp_wf s -> equal_weights s -> sp_axes s <> [] -> length (sp_axes s) <= limit -> (0 < eps)%Qc -> (0 < tol)%Qc ->
  dim_of (sp_cps s) = length (sp_axes s) -> one_kind (sp_axes s) -> Forall2 (sampled_axis (length (sp_axes s)) eps tol) (sp_axes s) knots ->
  exists s', determinant_spline solve limit eps tol s = Determinant s' /\ sp_wf s' /\ sp_weights s' = None /\ Forall (fun p => length p = 1) (sp_cps s') /\
    Forall2 (fun a a' => ax_degree a' = length (sp_axes s) * ax_degree a - 1 /\ ax_lower a' = ax_lower a /\ ax_upper a' = ax_upper a) (sp_axes s) (sp_axes s') /\
    forall u, sp_domain s u -> sp_value s' u 0 = jacobian_determinant s u.
Proof.
  intros Sol (Wf & Wl & Ww) Ew Ne Hl He Ht Hd OK K. destruct (sampled_dirs _ _ _ _ _ K) as (l & El & _ & S). set (n := length (sp_axes s)) in *.
  assert (1 <= n) as Hn by (unfold n; destruct (sp_axes s); [contradiction|cbn; lia]). assert (n = length l) as En by (unfold n; rewrite <- El; apply map_length).
  assert (Forall dir_form l) as Fl by (eapply Forall_impl; [|exact S]; intros d Sd; apply Sd). destruct s as [axes cps ws]. cbn [sp_axes sp_cps sp_weights] in *. subst axes.
  assert (forall u i j, in_box l u -> i < n -> j < n -> sp_deriv (Spl (map d_a l) cps ws) j u i = sp_deriv (Spl (map d_a l) cps None) j u i) as Eq.
  { intros u i j Hu Hi Hj. destruct ws as [ws|]; [|reflexivity]. destruct Ew as (w & Hw & Ew). apply box_domain in Hu; auto. apply (equal_deriv _ _ _ w); auto.
    - rewrite <- (Forall2_len _ _ _ Hu), map_length. lia. - intros Z. rewrite Z in Hw. discriminate Hw. }
  destruct (determinant_exact solve limit n eps tol l cps) as (cps' & E & L & F1 & V); auto. set (T := map (tgt n tol) l) in *.
  assert (Forall dir_form T) as FT by (apply Forall_map; eapply Forall_impl; [|exact S]; intros d Sd; now apply (tgt_form n eps tol d)).
  exists (Spl (map d_a T) cps' None). split; [rewrite (same_determinant solve limit n eps tol l cps ws); auto|]. split; [|split; [reflexivity|split; [exact F1|split]]].
  - split; [now apply forms_wf|]. split; [|exact I]. cbn [sp_cps]. rewrite L. symmetry. apply fold_right_mul_prodn.
  - cbn [sp_axes]. unfold T. clearbody n. clear - S Hn. induction S as [|d l Sd S IH]; [constructor|]. cbn [map]. constructor; [|exact IH]. split; [apply tgt_degree|].
    destruct (tgt_form n eps tol d Hn Sd) as (W & _). destruct Sd as (W0 & _). destruct (axis_bounds _ _ (form_knots _ _ _ W)) as (_ & A & B). destruct (axis_bounds _ _ (form_knots _ _ _ W0)) as (_ & A0 & B0). rewrite A, B, A0, B0. auto.
  - intros u Hu. unfold sp_domain in Hu. cbn [sp_axes] in Hu. apply box_domain in Hu; auto. rewrite V by auto. unfold jacobian_determinant. cbn [sp_axes]. apply det_ext. intros i j Hi Hj. rewrite map_length in *. rewrite <- En in *. symmetry. now apply Eq.
Qed.
Lemma above_least c l : Forall (fun x : Qc => (c < x)%Qc) l -> exists c', (c < c')%Qc /\ Forall (fun x => (c' <= x)%Qc) l.
Proof.
  induction 1 as [|x l H F (c' & A & B)]; [exists (c + 1)%Qc; split; [|constructor]; clear; qlra|]. destruct (Qclt_le_dec x c') as [L|L].
  - exists x. split; auto. constructor; [apply Qcle_refl|]. eapply Forall_impl; [|exact B]. intros y Hy. apply Qclt_le_weak. eapply Qclt_le_trans; eauto.
  - exists c'. split; auto.
Qed.
Lemma value_above s u c : sp_wf s -> sp_weights s = None -> sp_domain s u -> Forall (fun p => (c < nth 0 p 0)%Qc) (sp_cps s) -> (c < sp_value s u 0)%Qc.
Proof.
  intros (W & L & _) Ew D F. destruct (above_least c (map (fun p => nth 0 p 0%Qc) (sp_cps s))) as (c' & A & B); [now apply Forall_map|]. eapply Qclt_le_trans; [exact A|].
  unfold sp_value. rewrite Ew. cbv zeta. set (B0 := sp_basis (sp_axes s) u). set (P := net (sp_res s) (sp_cps s) 0).
  assert (map fst B0 = sp_res s) as E. { unfold B0, sp_basis, sp_res. rewrite map_map. cbn [fst]. clear - D. unfold sp_domain in D. induction D; [reflexivity|]. cbn [combine map fst]. f_equal. auto. }
  assert (0 <= tensor B0 (fun ix => P ix + - c' * 1))%Qc as Z.
  { apply tensor_nonneg.
    - unfold B0, sp_basis. clear - W D. unfold sp_domain in D. induction D as [|a x axes u Da D IH]; [constructor|]. inversion_clear W. cbn [combine map]. constructor; [|now apply IH]. cbn [fst snd]. intros i Hi. destruct a as [p|p kv]; [apply bernstein_nonneg; apply Da|now apply bspline_basis_nonneg].
    - intros ix Hx. rewrite E in Hx. unfold P, net. set (k := flat_id (sp_res s) ix). assert (k < length (sp_cps s)) as Hk. { unfold k. rewrite flat_id_undigits by (now apply BaseRadix.valid_length in Hx). rewrite L, fold_right_mul_prodn. now apply undigits_lt. }
      pose proof (proj1 (Forall_forall _ _) B _ (in_map (fun p => nth 0 p 0%Qc) _ _ (nth_In _ [] Hk))) as X. cbv beta in X. clear - X. qlra. }
  rewrite tensor_add, tensor_mul_l in Z. unfold B0 in Z at 2. rewrite basis_ones in Z by auto. clear - Z. qlra.
Qed.
