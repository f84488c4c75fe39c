(** Witnesses and assembly of the theorems of T_Ffd. *)
From Coq Require Import List Arith ZArith Lia Bool QArith Qcanon.
From Verif Require Import Base BaseQc S_Grid S_Spline P_Spline S_Value P_Value M_Core S_Core P_Core M_Knots S_Knots P_Knots
  M_Create P_Create P_Shapes W_Create P_Fit M_Ffd S_Ffd P_Ffd.
Import ListNotations.
Local Open Scope list_scope.
Local Open Scope nat_scope.

Lemma C50_unit_holds :
  forall tol limit st m, (0 < tol)%Qc -> reachable tol limit st -> d_mesh st = Some m ->
  v_vertices m <> [] /\ (tol <= d_padding st)%Qc /\ exists q, d_q st = Some q /\ fits_cube (d_padding st) m q.
Proof.
  intros tol limit st m Ht R Em. destruct (reachable_good tol limit st Ht R) as (G1 & G2 & _). rewrite Em in G2.
  destruct G2 as (_ & Hne & _ & q & Eq & F). eauto 6.
Qed.

Lemma C50_dims_holds :
  forall tol limit st m s, (0 < tol)%Qc -> reachable tol limit st -> d_mesh st = Some m -> d_spline st = Some s ->
  length (sp_axes s) = v_dim m.
Proof.
  intros tol limit st m s Ht R Em Es. destruct (reachable_good tol limit st Ht R) as (_ & _ & G). rewrite Es, Em in G. apply G.
Qed.

Lemma C50_domain_holds :
  forall tol limit st m s0 st', (0 < tol)%Qc -> reachable tol limit st -> d_mesh st = Some m ->
  sp_wf s0 -> 1 <= length (sp_axes s0) <= limit -> Forall whole_range (sp_axes s0) ->
  set_spline st (Some s0) = Done st' ->
  exists s q, d_spline st' = Some s /\ d_q st' = Some q /\ length q = length (v_vertices m) /\ Forall (sp_domain s) q.
Proof.
  intros tol limit st m s0 st' Ht R Em W Hl Wr E. pose proof (reachable_good tol limit st Ht R) as G.
  pose proof (set_spline_good tol limit st (Some s0) (conj W Hl) G) as G'. rewrite E in G'. cbn [state_of] in G'.
  unfold set_spline in E. rewrite Em in E. destruct (matches s0 m); [|discriminate E]. injection E as <-.
  destruct G as (_ & G2 & _). rewrite Em in G2. destruct G2 as (_ & _ & _ & q & Eq & F).
  exists (normalize_knot_vectors s0), q. cbn [d_spline d_q]. split; auto. split; auto. split; [apply F|].
  refine (cube_domain tol limit _ m _ q G' _ _ _ _); auto; [].
  cbn [normalize_knot_vectors sp_axes]. apply Forall_map. destruct W as [W _]. apply Forall_forall. intros a Ha.
  apply normalized_whole; [now apply (proj1 (Forall_forall _ _) W)|now apply (proj1 (Forall_forall _ _) Wr)].
Qed.

Lemma C50_default_holds :
  forall tol limit st m st' ps, (0 < tol)%Qc -> reachable tol limit st -> d_spline st = None -> mesh_ok m ->
  set_mesh limit st (Some m) = Done st' ->
  let st'' := run tol limit st' (map SetPadding ps) in
  exists m', get_mesh st'' = Some m' /\ within (d_padding st'') m m'.
Proof.
  intros tol limit st m st' ps Ht R Es Ok E. cbv zeta. pose proof (reachable_good tol limit st Ht R) as G.
  destruct (set_mesh_spec tol limit st m Ht Ok G) as (G' & _ & _ & Dn). rewrite E in G'. cbn [state_of] in G'.
  destruct (Dn st' E) as (Em & _ & Nk & s & Es'). destruct Nk as (lo & hi & B & Ds).
  { rewrite Es. intros (s' & H & _). discriminate H. }
  destruct (padding_default tol limit m ps st' Ht G') as [G2 D2].
  { split; auto. exists lo, hi. split; auto. split; [rewrite Es'; discriminate|auto]. }
  now apply (default_within tol limit).
Qed.

Lemma C50_padding_holds :
  forall tol limit st p, (0 < tol)%Qc -> reachable tol limit st ->
  ((exists st', set_padding tol limit st p = Done st') <-> (tol <= p)%Qc) /\
  (forall st', set_padding tol limit st p = Raised st' -> st' = st) /\
  (forall st' m, set_padding tol limit st p = Done st' -> d_mesh st = Some m ->
     d_mesh st' = Some m /\ exists q, d_q st' = Some q /\ fits_cube p m q).
Proof.
  intros tol limit st p Ht R. pose proof (reachable_good tol limit st Ht R) as G.
  destruct (set_padding_spec tol limit st p Ht G) as (G' & Iff & Dn & Ra). split; auto. split; auto. intros st' m E Em.
  destruct (Dn st' E) as (Ep & Em' & _). rewrite E in G'. cbn [state_of] in G'. destruct G' as (_ & G2 & _). rewrite Em', Em, Ep in *.
  split; auto. destruct G2 as (_ & _ & _ & q & Eq & F). eauto.
Qed.

Lemma C50_replace_partial_holds :
  forall tol limit st m, (0 < tol)%Qc -> reachable tol limit st -> mesh_ok m ->
  ((exists st', set_mesh limit st (Some m) = Done st') <->
     v_vertices m <> [] /\
     ((exists s, d_spline st = Some s /\ length (sp_axes s) = v_dim m) \/
      (1 <= v_dim m <= limit /\ match d_mesh st with Some m0 => v_dim m0 = v_dim m | None => True end))) /\
  (forall st', set_mesh limit st (Some m) = Done st' -> exists m', d_mesh st' = Some m /\ get_mesh st' = Some m') /\
  (v_vertices m <> [] -> 1 <= v_dim m <= limit ->
   exists st', set_mesh limit (state_of (set_mesh limit st None)) (Some m) = Done st').
Proof.
  intros tol limit st m Ht R Ok. pose proof (reachable_good tol limit st Ht R) as G.
  destruct (set_mesh_spec tol limit st m Ht Ok G) as (G' & _ & Iff & Dn). split; auto. split.
  - intros st' E. destruct (Dn st' E) as (Em & _ & _ & s & Es). rewrite E in G'. destruct G' as (_ & G2 & _). cbn [state_of] in G2.
    rewrite Em in G2. destruct G2 as (_ & _ & _ & q & Eq & _). unfold get_mesh. rewrite Em, Es, Eq. eauto.
  - intros Hv Hl. assert (good tol limit (state_of (set_mesh limit st None))) as Gn by now apply (set_mesh_good tol).
    destruct (set_mesh_spec tol limit _ m Ht Ok Gn) as (_ & _ & Iff' & _). apply Iff'. split; [auto|]. right. split; [exact Hl|exact I].
Qed.

Definition square := Mesh 2 [[0; 0]; [inj 2; 0]; [inj 2; inj 2]; [0; inj 2]]%Qc (Some [[0; 1; 2; 3]]).

Definition cloud := Mesh 3 [[0; 0; 0]; [1; inj 2; inj 3]]%Qc None.

Definition small := Mesh 2 [[0; 0]; [1; 1]]%Qc None.

Definition open_surface := Spl [KnotAxis 1 [0; 1; inj 2; inj 3]; KnotAxis 1 [0; 1; inj 2; inj 3]]%Qc
  [[0; 0]; [1; 0]; [0; 1]; [1; 1]]%Qc None.

Definition flat_surface := Spl [KnotAxis 1 [0; 0; 1; inj 2; inj 2]; BezierAxis 1]%Qc
  [[0; 0]; [1; 0]; [inj 2; 0]; [0; 1]; [1; 1]; [inj 2; 1]]%Qc None.

Definition tol1 : Qc := qc 1 100.

Lemma C50_replace_refuted_holds :
  exists st, new_ffd tol1 3 (Some square) None None = Some st /\ mesh_ok square /\ mesh_ok cloud /\
  get_mesh st <> None /\
  exists st', set_mesh 3 st (Some cloud) = Raised st' /\ d_spline st' = None /\ d_mesh st' = Some square /\ get_mesh st' = None.
Proof.
  destruct (new_ffd tol1 3 (Some square) None None) as [st|] eqn:E; [|exfalso; revert E; vm_compute; discriminate].
  exists st. split; auto. split; [repeat constructor|]. split; [repeat constructor|].
  vm_compute in E. injection E as <-. split; [unfold get_mesh; cbn [d_mesh d_spline d_q]; discriminate|].
  eexists. split; [vm_compute; reflexivity|]. now split.
Qed.

Lemma C50_get_refuted_holds :
  exists st, new_ffd tol1 3 (Some square) None None = Some st /\
  exists st', set_spline st None = Done st' /\ d_mesh st' = Some square /\ get_mesh st' = None.
Proof.
  destruct (new_ffd tol1 3 (Some square) None None) as [st|] eqn:E; [|exfalso; revert E; vm_compute; discriminate].
  exists st. split; auto. vm_compute in E. injection E as <-. eexists. split; [vm_compute; reflexivity|]. now split.
Qed.

Lemma C50_stale_refuted_holds :
  exists st st' m', new_ffd tol1 3 (Some square) None None = Some st /\ mesh_ok small /\
  set_mesh 3 st (Some small) = Done st' /\ get_mesh st' = Some m' /\ ~ within (d_padding st') small m'.
Proof.
  destruct (new_ffd tol1 3 (Some square) None None) as [st|] eqn:E; [|exfalso; revert E; vm_compute; discriminate].
  vm_compute in E. injection E as E. exists st. rewrite <- E. do 2 eexists. split; [reflexivity|]. split; [repeat constructor|].
  split; [vm_compute; reflexivity|]. split; [unfold get_mesh; cbn [d_mesh d_spline d_q]; reflexivity|].
  intros (_ & _ & _ & H). specialize (H 1 0 ltac:(cbn; lia) ltac:(cbn; lia)). revert H. unfold Qcle, Qle. vm_compute. intros H. now apply H.
Qed.

Lemma C50_unclamped_refuted_holds :
  sp_wf open_surface /\
  exists st s q, new_ffd tol1 3 (Some square) (Some open_surface) None = Some st /\
  d_spline st = Some s /\ d_q st = Some q /\ Forall (fun u => ~ sp_domain s u) q.
Proof.
  split.
  { split; [|split; [reflexivity|exact I]]. assert (ax_wf (KnotAxis 1 [0; 1; inj 2; inj 3]%Qc)) as W; [|unfold open_surface; cbn [sp_axes]; auto].
    split; [reflexivity|]. split; [|reflexivity]. intros i j Hij Hj. cbn [length] in *.
    do 4 (destruct j as [|j]; [do 4 (destruct i as [|i]; [try lia; cbn [kn nth]; unfold Qcle, Qle; vm_compute; discriminate|]); lia|]). lia. }
  destruct (new_ffd tol1 3 (Some square) (Some open_surface) None) as [st|] eqn:E; [|exfalso; revert E; vm_compute; discriminate].
  vm_compute in E. injection E as E. exists st. rewrite <- E. cbn [d_spline d_q]. do 2 eexists. split; [reflexivity|]. split; [reflexivity|].
  split; [reflexivity|]. repeat constructor; intros H; inversion H as [|? ? ? ? [D1 D2] _]; subst; clear H;
    first [revert D1; unfold Qcle, Qle; vm_compute; intros H; now apply H|revert D2; unfold Qcle, Qle; vm_compute; intros H; now apply H].
Qed.

Lemma C50_example_holds :
  (0 < tol1)%Qc /\ mesh_ok square /\ mesh_ok cloud /\
  (exists st, new_ffd tol1 3 None None None = Some st /\ reachable tol1 3 st /\ d_spline st = None /\
     exists st', set_mesh 3 st (Some square) = Done st' /\ reachable tol1 3 st' /\
       (exists st2, set_spline st' (Some flat_surface) = Done st2) /\
       (exists st2, set_padding tol1 3 st' 1%Qc = Done st2) /\
       get_mesh st' <> Some square) /\
  sp_wf flat_surface /\ 1 <= length (sp_axes flat_surface) <= 3 /\ Forall whole_range (sp_axes flat_surface).
Proof.
  split; [reflexivity|]. split; [repeat constructor|]. split; [repeat constructor|]. split.
  - destruct (new_ffd tol1 3 None None None) as [st|] eqn:E; [|exfalso; revert E; vm_compute; discriminate].
    exists st. split; auto. split; [exists None, None, None, st, []; cbn; auto|]. pose proof E as E0. vm_compute in E0. injection E0 as E0.
    split; [now rewrite <- E0|]. destruct (set_mesh 3 st (Some square)) as [st'|st'] eqn:Em; [|exfalso; revert Em; rewrite <- E0; vm_compute; discriminate].
    exists st'. split; auto. split.
    { exists None, None, None, st, [SetMesh (Some square)]. split; [exact I|]. split; [exact I|]. split; auto. split.
      - constructor; [repeat constructor|constructor].
      - cbn [run fold_left step]. now rewrite Em. }
    rewrite <- E0 in Em. vm_compute in Em. injection Em as <-. split; [eexists; vm_compute; reflexivity|]. split; [eexists; vm_compute; reflexivity|].
    intros H. apply (f_equal (option_map (fun m => this (nth 0 (nth 0 (v_vertices m) []) 0%Qc)))) in H. revert H. vm_compute. discriminate.
  - split.
    { split; [|split; [reflexivity|exact I]]. constructor; [|repeat constructor].
      split; [reflexivity|]. split; [|reflexivity]. intros i j Hij Hj. cbn [length] in *.
      do 5 (destruct j as [|j]; [do 5 (destruct i as [|i]; [try lia; cbn [kn nth]; unfold Qcle, Qle; vm_compute; discriminate|]); lia|]). lia. }
    split; [cbn; lia|]. repeat constructor.
Qed.

