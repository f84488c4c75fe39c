(** Proofs about extract.bases: the lists of splines and two counterexamples. *)
From Coq Require Import List Arith ZArith Bool QArith Qcanon Lia.
From Verif Require Import Base BaseRadix BaseQc S_Grid S_Spline S_Value P_Grid P_Spline P_Value M_Core S_Core S_Files M_Bezier M_Create S_Create P_Create P_Shapes S_SubSpline P_SubCut S_Mapper P_Mapper M_SubSpline P_IntWitness M_Bases S_Bases P_Bases P_BasesView.
Import ListNotations.
Local Open Scope list_scope.
Local Open Scope nat_scope.

Lemma row_index_of n i : match row_index n i with Some r => row_of n i r | None => forall r, ~ row_of n i r end.
Proof.
  destruct (row_index n i) as [r|] eqn:E; [now apply row_index_some|]. intros r H. apply row_index_some in H. congruence.
Qed.

(** The loop over the ids. *)
Lemma bases_loop limit dim s place ids : sound limit dim s -> (has_kvs s = false -> dim + 1 <= limit) ->
  (forall us d, sp_domain s us -> d < dim -> sp_value s us d = place us d) ->
  exists b0, embed_one_more limit s = Some b0 /\
  match all_some (map (fun i => match row_index (length (map (set_last 0%Qc) (sp_cps b0))) i with
                              | Some r => Some (Spl (sp_axes b0) (set_nth (map (set_last 0%Qc) (sp_cps b0)) r (set_last 1%Qc (nth r (map (set_last 0%Qc) (sp_cps b0)) []))) (sp_weights b0))
                              | None => None
                              end) ids) with
  | Some bs => Forall2 (shows s dim place) ids bs
  | None => exists i, In i ids /\ forall r, ~ row_of (length (sp_cps s)) i r
  end.
Proof.
  intros So Hb Pl. destruct (bases_of_embedded limit dim s So Hb) as (b & E & H). exists b. split; [exact E|]. cbv zeta in H.
  pose proof So as (St & W & Fr & _).
  assert (length (map (set_last 0%Qc) (sp_cps b)) = length (sp_cps s)) as Lb.
  { apply (H 0). apply (P_IntWitness.wf_positive s W). }
  rewrite Lb. induction ids as [|i ids IH]; cbn [map all_some]; [constructor|].
  pose proof (row_index_of (length (sp_cps s)) i) as R. destruct (row_index (length (sp_cps s)) i) as [r|]; [|exists i; split; [now left|auto]].
  destruct (all_some (map _ ids)) as [bs|]; [|destruct IH as (j & J1 & J2); exists j; split; [now right|auto]].
  constructor; [|exact IH]. exists r. split; [exact R|]. destruct (H r (proj1 R)) as (_ & Ra). pose proof Ra as (A1 & A2 & _ & A4 & _).
  split; [exact A1|]. split; [exact A2|]. split; [exact A4|]. intros us D.
  destruct (raised_values s dim r _ us W Ra) as [V1 V2]; [symmetry; exact (Forall2_len _ _ _ D)|exact (proj1 R)|].
  split; [exact V1|]. intros d Hd. rewrite V2 by auto. now apply Pl.
Qed.

Lemma bases_plain limit elev ins dim s ids : sound limit dim s -> (has_kvs s = false -> dim + 1 <= limit) ->
  match bases limit elev ins s ids false with
  | Some bs => Forall2 (shows s dim (sp_value s)) (chosen s ids) bs
  | None => exists i, In i (chosen s ids) /\ forall r, ~ row_of (length (sp_cps s)) i r
  end.
Proof.
  intros So Hb. unfold bases. destruct (bases_loop limit dim s (sp_value s) (chosen s ids) So Hb) as (b & E & H); [auto|]. rewrite E. exact H.
Qed.

Lemma wf_same_count s v : sp_wf s -> sp_wf v -> sp_axes v = sp_axes s -> length (sp_cps v) = length (sp_cps s).
Proof. intros (_ & L & _) (_ & L' & _) E. rewrite L, L'. unfold sp_res. now rewrite E. Qed.

Lemma bases_view limit elev ins tol dim s ids : elevates_spans elev -> raises_multiplicity tol ins -> sound limit dim s -> sp_weights s = None ->
  Forall (viewable tol) (sp_axes s) -> (has_kvs s = false -> length (sp_axes s) + 1 <= limit) ->
  match bases limit elev ins s ids true with
  | Some bs => Forall2 (shows s (length (sp_axes s)) (fun us d => nth d us 0%Qc)) (chosen s ids) bs
  | None => exists i, In i (chosen s ids) /\ forall r, ~ row_of (length (sp_cps s)) i r
  end.
Proof.
  intros EL RM So W0 FV Hb. destruct (conform_view_exact limit dim tol elev ins s EL RM So W0 FV) as (v & Ev & I & A).
  pose proof (id_sound _ _ _ I) as Sv. pose proof So as (_ & Ws & _). pose proof Sv as (_ & Wv & _).
  assert (length (sp_cps v) = length (sp_cps s)) as Lv by now apply wf_same_count.
  unfold bases. rewrite Ev. destruct (bases_loop limit (length (sp_axes s)) v (fun us d => nth d us 0%Qc) (chosen s ids) Sv) as (b & E & H).
  { intros K. apply Hb. unfold has_kvs in *. now rewrite A in K. }
  { exact (id_value _ _ _ I). }
  rewrite E. change (match ids with Some l => l | None => map Z.of_nat (seq 0 (length (sp_cps s))) end) with (chosen s ids).
  destruct (all_some _) as [bs|]; [|now rewrite Lv in H].
  revert H. generalize (chosen s ids). induction 1 as [|i b' l bs (r & R & A1 & A2 & A3 & V) F IH]; constructor; auto.
  exists r. rewrite Lv in R. split; [exact R|]. rewrite A1, A2, (id_weights _ _ _ I). split; [exact A|]. split; [auto|]. split; [exact A3|].
  intros us D. destruct (V us) as [V1 V2]; [unfold sp_domain in *; now rewrite A|]. split; [|exact V2]. rewrite V1. unfold spline_basis. now rewrite A, Lv, (id_weights _ _ _ I), W0.
Qed.

(** ** Counterexamples *)
Definition weighted_segment : spline := Spl [BezierAxis 1] [[0]; [1]]%Qc (Some [1; qc 3 1]%Qc).
Lemma weighted_view elev ins : exists bs, bases 10 elev ins weighted_segment None true = Some bs /\ length bs = 2 /\
  forall b, In b bs -> sp_value b [qc 1 2] 0 = qc 3 4.
Proof.
  eexists. split; [vm_compute; reflexivity|]. split; [reflexivity|]. intros b [<-|[<-|[]]]; apply Qc_is_canon; vm_compute; reflexivity.
Qed.

Definition unclamped : spline := Spl [KnotAxis 2 [0; 1; qc 2 1; qc 3 1; qc 4 1; qc 5 1]%Qc] [[0]; [1]; [0]]%Qc None.
Lemma unclamped_sound : sound 10 1 unclamped.
Proof.
  split; [|split; [|split; [repeat constructor|exact I]]].
  - destruct (build 10 1 unclamped (sp_axes unclamped) (sp_cps unclamped) None) as [_ B]; auto; try easy; try (cbn; lia).
    + repeat constructor; try (cbn; lia); try discriminate.
      intros i j L H. cbn in H. do 6 (destruct i as [|i]; [do 6 (destruct j as [|j]; [try lia; try discriminate|]); lia|]). lia.
    + repeat constructor.
  - split; [|split; [reflexivity|exact I]]. constructor; [|constructor]. split; [reflexivity|]. split; [|reflexivity].
    intros i j L H. cbn in H. do 6 (destruct i as [|i]; [do 6 (destruct j as [|j]; [try lia; try discriminate|]); lia|]). lia.
Qed.
Lemma unclamped_view elev ins : elevates_spans elev ->
  exists b l, bases 10 elev ins unclamped None true = Some (b :: l) /\ sp_value b [qc 5 2] 1 = qc 1 4 /\ spline_basis unclamped 0 [qc 5 2] = qc 1 8.
Proof.
  intros EL. destruct (start_view 10 1 unclamped unclamped_sound eq_refl) as (v0 & E0 & I0 & A0). change (has_knot_vectors unclamped) with true in I0, A0. cbv beta iota zeta in I0, A0.
  destruct (elevated_view 10 1 elev unclamped v0 EL I0 A0) as (v & E & Iv & A).
  { constructor; [|constructor]. split; [cbn; lia|reflexivity]. }
  assert (conform_view 10 elev ins unclamped = Some v) as Ev.
  { unfold conform_view. cbv zeta. rewrite E0. change (is_rational unclamped) with false. change (has_knot_vectors unclamped) with true. cbv beta iota. rewrite E. reflexivity. }
  pose proof (id_sound _ _ _ Iv) as Sv.
  assert (sp_axes v = [KnotAxis 2 [qc 2 1; qc 2 1; qc 2 1; qc 3 1; qc 3 1; qc 3 1]]) as Av by (rewrite A; reflexivity).
  assert (length (sp_cps v) = 3) as Lv. { destruct Sv as (_ & (_ & L & _) & _). rewrite L. unfold sp_res. rewrite Av. reflexivity. }
  unfold bases. rewrite Ev. destruct (bases_loop 10 1 v (sp_value v) [0; 1; 2]%Z Sv) as (b0 & Eb & H); auto; try (intros K; lia).
  rewrite Eb. cbn [sp_cps unclamped length seq map] in *. change (Z.of_nat 0) with 0%Z. change (Z.of_nat 1) with 1%Z. change (Z.of_nat 2) with 2%Z.
  destruct (all_some _) as [bs|].
  - inversion H as [|i b l bs' Sh F Ei El]. subst. exists b, bs'. split; [reflexivity|]. split; [|apply Qc_is_canon; vm_compute; reflexivity].
    destruct Sh as (r & (Lr & Er) & _ & _ & _ & V). assert (r = 0) as -> by lia.
    destruct (V [qc 5 2]) as [V1 _].
    + unfold sp_domain. rewrite Av. constructor; [|constructor]. split; discriminate.
    + rewrite V1. unfold spline_basis. rewrite Av, Lv, (id_weights _ _ _ Iv). apply Qc_is_canon; vm_compute; reflexivity.
  - exfalso. destruct H as (i & Ii & Hn). rewrite Lv in Hn. destruct Ii as [<-|[<-|[<-|[]]]]; [apply (Hn 0)|apply (Hn 1)|apply (Hn 2)]; split; lia.
Qed.
