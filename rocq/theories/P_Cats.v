(** Proofs about files in the format of CATS. *)
From Coq Require Import String List Arith ZArith Bool Lia QArith Qcanon.
From Verif Require Import Base BaseQc S_Spline S_Value M_Core S_Core P_Core P_Value M_Bezier P_Bezier M_Files S_Files P_Files M_Mfem S_Mfem P_Mfem M_Gismo S_Gismo P_Gismo M_Cats S_Cats.
Import ListNotations.
Local Open Scope string_scope.
Local Open Scope list_scope.
Local Open Scope nat_scope.

Lemma reals_of_map l : reals_of (map TReal l) = l.
Proof. induction l; cbn; congruence. Qed.
Lemma ints_of_map l : ints_of (map TInt l) = l.
Proof. induction l; cbn; congruence. Qed.
Lemma any_zero n : any_one (repeat (TInt 0) n) = Some false.
Proof. induction n; cbn; auto. Qed.
Lemma states_attribute tag0 a t c k z d : states (Elem tag0 a t c) k z -> int_attribute a k d = Some z.
Proof.
  intros (b & e & -> & N). unfold int_attribute, get. rewrite rev_app_distr. cbn [rev]. rewrite <- app_assoc. cbn [app].
  assert (E : forall l r, (forall v, ~ In (k, v) l) -> find (fun e => String.eqb (fst e) k) (rev l ++ (k, [TInt z]) :: r) = Some (k, [TInt z])).
  { intros l r H. assert (K : forall v, ~ In (k, v) (rev l)) by (intros v X; apply in_rev in X; now apply (H v)). clear H.
    induction (rev l) as [|[k' v'] l' IH]; cbn [app find fst].
    - now rewrite String.eqb_refl.
    - destruct (String.eqb_spec k' k) as [->|X]; [destruct (K v'); now left|]. apply IH. intros v X'. apply (K v). now right. }
  now rewrite E.
Qed.
Lemma columns_all n m : Forall (fun r => length r = n) m -> columns (Z.of_nat n) m = m.
Proof.
  intros F. unfold columns. destruct (Z.ltb_spec (Z.of_nat n) 0); [lia|]. rewrite Nat2Z.id. induction F as [|r m E F IH]; cbn [map]; auto.
  f_equal; auto. rewrite <- E. apply firstn_all.
Qed.
Lemma columns_first n m : columns (Z.of_nat n) m = map (firstn n) m.
Proof. unfold columns. destruct (Z.ltb_spec (Z.of_nat n) 0); [lia|]. now rewrite Nat2Z.id. Qed.
Lemma read_knots_all kvs : Forall (fun kv => kv <> []) kvs ->
  all_some (map read_knots (map (fun kv => Elem "kntVec" [] (map TReal kv) []) kvs)) = Some kvs.
Proof.
  intros F. rewrite map_map. rewrite (all_some_map_eq _ (fun kv => kv)); [now rewrite map_id|]. intros kv H. rewrite Forall_forall in F. apply F in H.
  cbn [read_knots]. unfold with_text. destruct kv; [easy|]. cbn [map]. now rewrite <- (reals_of_map (_ :: _)) at 1.
Qed.

(** One patch. *)
Lemma infos_read dim vars rows degs kvs ws names : 0 < vars -> rows <> [] -> Forall (fun r => length r = vars) rows -> degs <> [] -> names <> [] ->
  Forall (fun kv => kv <> []) kvs -> match ws with Some w => w <> [] | None => True end ->
  read_infos (Z.of_nat dim) (Z.of_nat (length degs)) (Z.of_nat vars) (Dict None None None None)
    ([Elem "cntrlPntVarNames" [] (map TName names) []; Elem "cntrlPntVars" [] (map TReal (concat rows)) []; Elem "deg" [] (map TInt degs) [];
      Elem "kntVecs" [] [] (map (fun kv => Elem "kntVec" [] (map TReal kv) []) kvs)] ++
     match ws with Some w => [Elem "wght" [] (map TReal w) []] | None => [] end) =
  Some (Dict (Some (map (firstn dim) rows)) (Some degs) ws (Some kvs)).
Proof.
  intros Hv Hr F Hd Hn Hk Hw.
  assert (N1 : concat rows <> []).
  { destruct rows as [|r rows]; [easy|]. inversion_clear F. destruct r; cbn in *; [lia|easy]. }
  assert (T : forall A B (f : A -> tok) (l : list A) (r : option B), l <> [] -> with_text (map f l) r = r) by (intros A B f [|]; easy).
  cbn [app]. cbn [read_infos].
  replace (read_info (Z.of_nat dim) (Z.of_nat (length degs)) (Z.of_nat vars) (Dict None None None None) (Elem "cntrlPntVarNames" [] (map TName names) []))
    with (Some (Dict None None None None)) by (symmetry; apply (T _ _ TName names); auto).
  replace (read_info (Z.of_nat dim) (Z.of_nat (length degs)) (Z.of_nat vars) (Dict None None None None) (Elem "cntrlPntVars" [] (map TReal (concat rows)) []))
    with (Some (Dict (Some (map (firstn dim) rows)) None None None)).
  2:{ symmetry. etransitivity; [apply (T _ _ TReal (concat rows)); auto|]. destruct (Z.leb_spec (Z.of_nat vars) 0); [lia|].
      rewrite Nat2Z.id, reals_of_map, reshape_concat by auto. cbn [option_map d_deg d_ws d_kvs]. now rewrite columns_first. }
  replace (read_info (Z.of_nat dim) (Z.of_nat (length degs)) (Z.of_nat vars) (Dict (Some (map (firstn dim) rows)) None None None) (Elem "deg" [] (map TInt degs) []))
    with (Some (Dict (Some (map (firstn dim) rows)) (Some degs) None None)).
  2:{ symmetry. etransitivity; [apply (T _ _ TInt degs); auto|]. rewrite ints_of_map, Z.eqb_refl. reflexivity. }
  replace (read_info (Z.of_nat dim) (Z.of_nat (length degs)) (Z.of_nat vars) (Dict (Some (map (firstn dim) rows)) (Some degs) None None) (Elem "kntVecs" [] [] (map (fun kv => Elem "kntVec" [] (map TReal kv) []) kvs)))
    with (Some (Dict (Some (map (firstn dim) rows)) (Some degs) None (Some kvs))).
  2:{ symmetry. unfold read_info. change (contains "cntrlPntVarNames" "kntVecs") with false. change (contains "cntrlPntVars" "kntVecs") with false.
      change (contains "deg" "kntVecs") with false. change (contains "wght" "kntVecs") with false. change (contains "kntVecs" "kntVecs") with true.
      cbv iota. rewrite read_knots_all by auto. reflexivity. }
  destruct ws as [w|]; [|reflexivity]. cbn [read_infos].
  replace (read_info (Z.of_nat dim) (Z.of_nat (length degs)) (Z.of_nat vars) (Dict (Some (map (firstn dim) rows)) (Some degs) None (Some kvs)) (Elem "wght" [] (map TReal w) []))
    with (Some (Dict (Some (map (firstn dim) rows)) (Some degs) (Some w) (Some kvs))); [reflexivity|].
  symmetry. etransitivity; [apply (T _ _ TReal w); auto|]. now rewrite reals_of_map.
Qed.
Lemma patch_read tag0 a t dim vars rows degs kvs ws names : 0 < vars -> rows <> [] -> Forall (fun r => length r = vars) rows -> degs <> [] -> names <> [] ->
  Forall (fun kv => kv <> []) kvs -> match ws with Some w => w <> [] | None => True end ->
  int_attribute a "spaceDim" (-1) = Some (Z.of_nat dim) -> int_attribute a "splDim" (-1) = Some (Z.of_nat (length degs)) ->
  int_attribute a "numOfCntrlPntVars" (-1) = Some (Z.of_nat vars) -> int_attribute a "numCntrlPnts" (-1) = Some (Z.of_nat (length rows)) ->
  any_one (match get a "closed" with Some t => t | None => [] end) = Some false ->
  read_spline (Elem tag0 a t
    ([Elem "cntrlPntVarNames" [] (map TName names) []; Elem "cntrlPntVars" [] (map TReal (concat rows)) []; Elem "deg" [] (map TInt degs) [];
      Elem "kntVecs" [] [] (map (fun kv => Elem "kntVec" [] (map TReal kv) []) kvs)] ++
     match ws with Some w => [Elem "wght" [] (map TReal w) []] | None => [] end)) =
  Some (Dict (Some (map (firstn dim) rows)) (Some degs) ws (Some kvs)).
Proof.
  intros Hv Hr F Hd Hn Hk Hw A1 A2 A3 A4 A5. unfold read_spline. rewrite A1, A2, A3, A4, A5. cbn [existsb].
  destruct (Z.eqb_spec (Z.of_nat dim) (-1)), (Z.eqb_spec (Z.of_nat (length degs)) (-1)), (Z.eqb_spec (Z.of_nat vars) (-1)), (Z.eqb_spec (Z.of_nat (length rows)) (-1)); try lia.
  cbn [orb]. now apply infos_read.
Qed.

(** What is exported. *)
Definition patch_spline (rational : bool) (s : spline) : spline :=
  if rational || match sp_weights s with Some _ => true | None => false end then as_nurbs s else with_knots s.
Lemma patch_kept rational s : kept rational s (patch_spline rational s).
Proof.
  unfold kept, patch_spline. destruct (sp_weights s) as [w|] eqn:E; [rewrite orb_true_r|rewrite orb_false_r; destruct rational].
  - destruct (as_nurbs_of s) as (A & B & C). rewrite E in B. auto.
  - destruct (as_nurbs_of s) as (A & B & C). rewrite E in B. auto.
  - destruct (with_knots_of s) as (A & B & C). rewrite E in B. auto.
Qed.
Lemma patch_storable limit rational s : storable limit s -> storable limit (patch_spline rational s) /\ has_kvs (patch_spline rational s) = true.
Proof.
  intros St. unfold patch_spline. destruct (_ || _).
  - destruct (as_nurbs_like limit s St) as (A & _ & K). split; auto. unfold has_kvs.
    destruct A as (degs & kvs & cps & ws & (C1 & _) & _ & (H1 & _)). destruct K as [|a l (p & kv & ->) K]; [|easy]. cbn in H1. congruence.
  - destruct (with_knots_storable limit s St) as (degs & kvs & cps & ws & C & U & H). split; [now exists degs, (Some kvs), cps, ws|].
    destruct (core_props _ _ _ _ _ C H) as (_ & E & _). now destruct (has_kvs (M_Gismo.with_knots s)).
Qed.
Lemma names_some n : 0 < n -> variable_names n <> [].
Proof. intros H. unfold variable_names. destruct n; [lia|]. discriminate. Qed.
Lemma patch_roundtrip limit s : storable limit s -> has_kvs s = true ->
  exists d, read_spline (reparse (patch_element s)) = Some d /\ dict_to_spline limit d = Some (Object (Some (name_of s)) s).
Proof.
  intros St K. exists (Dict (Some (sp_cps s)) (Some (core_degrees s)) (sp_weights s) (Some (core_kvs s))).
  pose proof (generic_ok limit s St) as G. rewrite K in G. split.
  2:{ unfold dict_to_spline. cbn [d_deg d_cps d_kvs d_ws]. now rewrite G. }
  destruct St as (degs & kvs & cps & ws & C & U & H). destruct (core_props s degs kvs cps ws C H) as (E1 & E2 & E3 & E4 & E5 & E6 & _).
  rewrite K in E2. subst kvs. destruct C as (N & F & (dim & D1 & D2) & Wn & W).
  assert (Nc : cps <> []) by (intros X; rewrite X in Wn; cbn [length] in Wn; apply wanted_pos_kvs in F; lia).
  rewrite E1, E3, E4 in *.
  assert (R : reparse (patch_element s) = Elem "SplineEntry"
    [("splDim", nat_text (length (sp_axes s))); ("spaceDim", nat_text (dim_of cps)); ("numOfCntrlPntVars", nat_text (dim_of cps));
     ("numCntrlPnts", nat_text (length cps)); ("numOfEleVars", nat_text 0); ("closed", repeat (TInt 0) (length (sp_axes s)))] []
    ([Elem "cntrlPntVarNames" [] (map TName (variable_names (dim_of cps))) []; Elem "cntrlPntVars" [] (map TReal (concat cps)) []; Elem "deg" [] (map TInt degs) [];
      Elem "kntVecs" [] [] (map (fun kv => Elem "kntVec" [] (map TReal kv) []) (core_kvs s))] ++
     match ws with Some w => [Elem "wght" [] (map TReal w) []] | None => [] end)).
  { unfold patch_element. rewrite E1, E3, E4. cbn [reparse flat_map app].
    f_equal. do 3 f_equal. f_equal.
    - f_equal. clear. induction (core_kvs s) as [|kv l IH]; [reflexivity|]. cbn [map flat_map app reparse]. now rewrite IH.
    - destruct ws; reflexivity. }
  rewrite R, (dim_of_uniform dim cps) by auto.
  replace (Some cps) with (Some (map (firstn dim) cps)).
  2:{ f_equal. clear - D2. induction D2 as [|r m E D IH]; cbn [map]; auto. rewrite IH, <- E. f_equal. apply firstn_all. }
  apply (patch_read _ _ _ dim dim); auto.
  - now apply names_some.
  - clear - F. induction F as [|d kv ds ks (A & _ & B) F IH]; constructor; auto. intros ->. cbn [length] in B. lia.
  - destruct ws; auto. intros ->. cbn in W. destruct cps; [easy|discriminate].
  - cbn. unfold nat_text. now rewrite E6.
  - cbn. apply any_zero.
Qed.

Lemma reparse_elem t a s c : (forall y, In y c -> y <> Comment) -> reparse (Elem t a s (Comment :: c)) = Elem t a s (map reparse c).
Proof.
  intros H. cbn [reparse flat_map]. f_equal. induction c as [|y c IH]; cbn [flat_map map]; auto.
  destruct y; [destruct (H Comment); [now left|reflexivity]|]. cbn [app]. f_equal. apply IH. intros; apply H. now right.
Qed.
Lemma cats_roundtrip limit rational l : Forall (fun o => o_cls o <> None) l -> Forall (fun o => storable limit (o_core o)) l ->
  exists f, export_cats rational l = Some f /\
  load_cats limit (reparse f) = Some (map (fun o => Object (Some (name_of (patch_spline rational (o_core o)))) (patch_spline rational (o_core o))) l).
Proof.
  intros C F. unfold export_cats.
  rewrite (all_some_map_eq _ (fun o => patch_spline rational (o_core o))).
  2:{ intros o H. rewrite Forall_forall in C. apply C in H. unfold patch_of. now destruct (o_cls o). }
  cbn [option_map]. eexists. split; [reflexivity|].
  rewrite reparse_elem.
  2:{ intros y H. apply in_map_iff in H as (s & <- & _). discriminate. }
  unfold load_cats. change (prefix "SplineList" "SplineList") with true. cbn [negb].
  change (get [("SplineType", nat_text 1); ("NumberOfSplines", nat_text (length l))] "SplineType") with (Some (nat_text 1)).
  change (int_attribute [("SplineType", nat_text 1); ("NumberOfSplines", nat_text (length l))] "NumberOfSplines" 0) with (Some (Z.of_nat (length l))).
  cbn [nat_text]. change (Z.of_nat 1 =? 1)%Z with true. cbn [negb]. rewrite !map_map.
  assert (X : exists ds, all_some (map (fun o => read_spline (reparse (patch_element (patch_spline rational (o_core o))))) l) = Some ds /\ length ds = length l /\
    all_some (map (dict_to_spline limit) ds) = Some (map (fun o => Object (Some (name_of (patch_spline rational (o_core o)))) (patch_spline rational (o_core o))) l)).
  { clear C. induction F as [|o l St F (ds & I1 & I2 & I3)]; [now exists []|].
    destruct (patch_storable limit rational _ St) as [S1 S2]. destruct (patch_roundtrip limit _ S1 S2) as (d & R1 & R2).
    exists (d :: ds). cbn [map all_some length]. rewrite R1, I1. cbn [map all_some]. rewrite R2, I3. auto. }
  destruct X as (ds & -> & E & X). rewrite E, Z.eqb_refl. exact X.
Qed.
Lemma cats_kept limit rational l : Forall own_class l -> Forall (fun o => storable limit (o_core o)) l ->
  exists f l', export_cats rational l = Some f /\ load_cats limit (reparse f) = Some l' /\ Forall own_class l' /\
  Forall2 (fun o o' => kept rational (o_core o) (o_core o')) l l'.
Proof.
  intros C F. destruct (cats_roundtrip limit rational l) as (f & E1 & E2); auto.
  { eapply Forall_impl; [|exact C]. intros o (c & -> & _). discriminate. }
  eexists f, _. split; [exact E1|]. split; [exact E2|]. clear - F. split.
  - apply Forall_map. eapply Forall_impl; [|exact F]. intros o St. cbv beta. eexists. split; [reflexivity|]. cbn [o_core].
    apply (name_right _ limit). now apply patch_storable.
  - induction F; cbn [map]; constructor; auto. cbn [o_core]. apply patch_kept.
Qed.

(** Values. *)
Lemma kept_map rational s t : kept rational s t -> sp_wf s -> same_map s t.
Proof.
  intros (E1 & E2 & F) W us.
  assert (K : knots_of (Spl (sp_axes s) (sp_cps s) (sp_weights t)) t) by (split; [auto|]; split; auto).
  assert (D : sp_domain t us <-> sp_domain s us).
  { unfold sp_domain. clear - F. revert us. induction F as [|a b l l' H F IH]; intros us; [reflexivity|].
    split; intros X; inversion X as [|? u ? us' X1 X2]; subst; constructor; try (now apply IH).
    - destruct a as [p|p kv]; [|now subst]. subst b. now apply (with_knots_domain (BezierAxis p)).
    - destruct a as [p|p kv]; [|now subst]. subst b. now apply (with_knots_domain (BezierAxis p)). }
  split; auto. intros Ds d. rewrite (knots_values _ t us d K). rewrite E2. destruct (sp_weights s) as [w|] eqn:Ew.
  - now rewrite <- Ew; destruct s.
  - destruct rational; [|now rewrite <- Ew; destruct s]. now apply (unit_weights_value s).
Qed.

(** ** Any file *)
Lemma all_some_length {A} (l : list (option A)) r : all_some l = Some r -> length r = length l.
Proof.
  revert r. induction l as [|[x|] l IH]; intros r H; cbn in H; [now injection H as <-| |discriminate].
  destruct (all_some l); [|discriminate]. injection H as <-. cbn. now rewrite (IH l0).
Qed.
Lemma all_some_each {A B} (f : A -> option B) l r x : all_some (map f l) = Some r -> In x l -> exists y, f x = Some y.
Proof.
  revert r. induction l as [|a l IH]; intros r H []; cbn in H; destruct (f a) eqn:E; try discriminate.
  - subst. eauto.
  - destruct (all_some (map f l)); [|discriminate]. eapply IH; eauto.
Qed.
Lemma load_counts limit f l n : load_cats limit f = Some l -> prefix "SplineList" (tag f) = true -> states f "NumberOfSplines" n ->
  n = Z.of_nat (length l) /\ length l = length (children f).
Proof.
  intros H P S. destruct f as [|t a s c]; [destruct S|]. cbn [tag children] in *. unfold load_cats in H. rewrite P in H. cbn [negb] in H.
  destruct (negb _) in H; [discriminate|]. rewrite (states_attribute _ _ _ _ _ _ 0 S) in H.
  destruct (all_some (map read_spline c)) as [ds|] eqn:E; [|discriminate]. destruct (Z.eqb_spec (Z.of_nat (length ds)) n) as [X|]; [|discriminate].
  apply all_some_length in E, H. rewrite map_length in *. lia.
Qed.
Lemma closed_any t u : Forall (fun k => exists z, k = TInt z) t -> any_one (t ++ TInt 1 :: u) = Some true.
Proof. induction 1 as [|k t (z & ->) F IH]; cbn [app any_one]; [reflexivity|]. now destruct (z =? 1)%Z. Qed.
Lemma get_after {V} (b e : list (string * V)) k v : (forall v', ~ In (k, v') e) -> get (b ++ (k, v) :: e) k = Some v.
Proof.
  intros H. unfold get. rewrite rev_app_distr. cbn [rev]. rewrite <- app_assoc. cbn [app].
  assert (K : forall v', ~ In (k, v') (rev e)) by (intros v' X; apply in_rev in X; now apply (H v')).
  induction (rev e) as [|[k' v'] l IH]; cbn [app find fst].
  - now rewrite String.eqb_refl.
  - destruct (String.eqb_spec k' k) as [->|X]; [destruct (K v'); now left|]. apply IH. intros v2 X'. apply (K v2). now right.
Qed.
Lemma closed_refused x : closed x -> read_spline x = None.
Proof.
  destruct x as [|t0 a s c]; [intros []|]. intros (b & e & t & u & -> & N & F). unfold read_spline. rewrite get_after by auto. rewrite closed_any by auto.
  repeat match goal with |- match int_attribute ?a ?k ?d with _ => _ end = _ => destruct (int_attribute a k d); [|reflexivity] end. reflexivity.
Qed.
Lemma load_refuses limit f x : prefix "SplineList" (tag f) = true -> In x (children f) -> closed x -> load_cats limit f = None.
Proof.
  intros P I C. destruct f as [|t a s c]; [reflexivity|]. cbn [tag children] in *. unfold load_cats. rewrite P. cbn [negb].
  destruct (negb _); auto. destruct (int_attribute _ _ _); auto. destruct (all_some (map read_spline c)) as [ds|] eqn:E; auto.
  destruct (all_some_each _ _ _ _ E I) as (y & Y). now rewrite closed_refused in Y.
Qed.
Lemma load_variables limit dim vars rows degs kvs ws names f : patch_file dim vars rows degs kvs ws names f -> names <> [] -> 0 < dim -> dim <= vars ->
  Forall (fun r => length r = vars) rows -> consistent degs (Some kvs) (map (firstn dim) rows) ws -> supported limit degs (Some kvs) (map (firstn dim) rows) ->
  exists o, load_cats limit f = Some [o] /\ own_class o /\ has_properties (o_core o) degs (Some kvs) (map (firstn dim) rows) ws.
Proof.
  intros (P1 & P2 & P3 & a & t & P4 & (S1 & S2 & S3 & S4) & NC) Hn Hd Hv R C U. destruct f as [|t0 a0 s0 c0]; [destruct P2|].
  cbn [tag children] in *. subst t0 c0. set (s := Spl (make_axes degs (Some kvs)) (map (firstn dim) rows) ws).
  assert (H : has_properties s degs (Some kvs) (map (firstn dim) rows) ws) by (apply new_core_properties; auto).
  assert (St : storable limit s) by (now exists degs, (Some kvs), (map (firstn dim) rows), ws).
  exists (Object (Some (name_of s)) s). split; [|split; [|exact H]].
  2:{ eexists. split; [reflexivity|]. eapply name_right; eauto. }
  unfold load_cats. change (prefix "SplineList" "SplineList") with true. cbn [negb].
  rewrite (get_none a0 "SplineType") by auto. cbn [negb]. rewrite (states_attribute _ _ _ _ _ _ 0 P2).
  cbn [map]. rewrite (patch_read _ _ _ dim vars); auto.
  - cbn [all_some length]. change (Z.of_nat 1 =? 1)%Z with true. cbv iota. cbn [map all_some]. unfold dict_to_spline. cbn [d_deg d_cps d_kvs d_ws].
    pose proof (generic_ok limit s St) as G. destruct (core_props _ _ _ _ _ C H) as (E1 & E2 & E3 & E4 & _). rewrite E1, E2, E3, E4 in G. now rewrite G.
  - lia.
  - intros ->. destruct C as (_ & F & _ & Wn & _). cbn in Wn. apply wanted_pos_kvs in F. lia.
  - now destruct C.
  - destruct C as (_ & F & _). clear - F. induction F as [|d kv ds ks (A & _ & B) F IH]; constructor; auto. intros ->. cbn [length] in B. lia.
  - destruct C as (_ & F & _ & Wn & W). destruct ws; auto. intros ->. cbn [length] in W. rewrite <- W in Wn. apply wanted_pos_kvs in F. lia.
  - eapply states_attribute; eauto.
  - eapply states_attribute; eauto.
  - eapply states_attribute; eauto.
  - eapply states_attribute; eauto.
  - rewrite get_none by auto. reflexivity.
Qed.
