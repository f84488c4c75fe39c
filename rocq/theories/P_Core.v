(** Proofs about creating splines and their property cache. *)
From Coq Require Import List Arith ZArith Bool QArith Qcanon Lia.
From Verif Require Import Base BaseQc S_Spline S_Value M_Core S_Core.
Import ListNotations.
Local Open Scope nat_scope.

(** * Core creation *)

Lemma nd_cons k kv :
  non_decreasing (k :: kv) <-> Forall (fun x => (k <= x)%Qc) kv /\ non_decreasing kv.
Proof.
  split.
  - intros H. split.
    + apply Forall_forall. intros x Hx. destruct (In_nth _ _ 0%Qc Hx) as [j [Hj E]].
      subst x. exact (H 0 (S j) ltac:(lia) ltac:(cbn; lia)).
    + intros i j Hij Hj. exact (H (S i) (S j) ltac:(lia) ltac:(cbn; lia)).
  - intros [F H] i j Hij Hj. destruct i as [|i], j as [|j]; cbn [nth length] in *.
    + apply Qcle_refl.
    + rewrite Forall_forall in F. apply F, nth_In. lia.
    + lia.
    + apply H; lia.
Qed.

Lemma knots_ok_spec prev kv :
  knots_ok prev kv = true <-> Forall (fun x => (prev <= x)%Qc) kv /\ non_decreasing kv.
Proof.
  revert prev. induction kv as [|k kv IH]; intros prev.
  - cbn. split; [intros _; split; [constructor|intros i j _ Hj; cbn in Hj; lia]|easy].
  - cbn [knots_ok]. rewrite andb_true_iff, IH, nd_cons, negb_true_iff.
    split.
    + intros [A [B C]]. destruct (qltb_spec 0 (prev - k)) as [L|L]; [discriminate|].
      assert (prev <= k)%Qc by qlra.
      split; [|easy]. constructor; [easy|].
      eapply Forall_impl; [|exact B]. intros x Hx. cbn in Hx. qlra.
    + intros [A [B C]]. inversion A as [|? ? A1 A2]; subst. split; [|easy].
      destruct (qltb_spec 0 (prev - k)) as [L|L]; [qlra|easy].
Qed.

Lemma wanted_pos_kvs degs kvs : Forall2 knots_fit degs kvs -> (0 < wanted degs (Some kvs))%Z.
Proof.
  induction 1 as [|d kv degs kvs [A [B C]] F IH]; cbn [wanted]; [lia|].
  apply Z.mul_pos_pos; [lia|exact IH].
Qed.
Lemma wanted_pos degs : Forall (fun d => (0 <= d)%Z) degs -> (0 < wanted degs None)%Z.
Proof.
  induction 1 as [|d degs A F IH]; cbn [wanted]; [lia|]. apply Z.mul_pos_pos; [lia|exact IH].
Qed.

Lemma check_kvs_some degs : forall kvs r q,
  length kvs = length degs -> check_kvs degs kvs r = Some q ->
  Forall2 knots_fit degs kvs /\ Forall (Forall (fun k => (qc (-1) 1 <= k)%Qc)) kvs /\
  q = (r * wanted degs (Some kvs))%Z.
Proof.
  induction degs as [|d degs IH]; intros kvs r q L E.
  - destruct kvs; [|discriminate]. cbn in *. injection E as <-. repeat split; [constructor..|lia].
  - destruct kvs as [|kv kvs]; [discriminate|]. cbn [check_kvs] in E.
    destruct (Z.ltb_spec d 0) as [?|Hd]; [discriminate|].
    destruct (knots_ok _ kv) eqn:K; cbn [negb] in E; [|discriminate].
    destruct (Z.ltb_spec (Z.of_nat (length kv)) (2 * (d + 1))) as [?|Hl]; [discriminate|].
    apply knots_ok_spec in K. destruct K as [K1 K2].
    apply IH in E; [|cbn in L; lia]. destruct E as [E1 [E2 E3]].
    split; [|split].
    + constructor; [|exact E1]. unfold knots_fit. auto.
    + constructor; assumption.
    + cbn [wanted]. lia.
Qed.

Lemma check_kvs_fits degs kvs : Forall2 knots_fit degs kvs ->
  Forall (Forall (fun k => (qc (-1) 1 <= k)%Qc)) kvs ->
  forall r, check_kvs degs kvs r = Some (r * wanted degs (Some kvs))%Z.
Proof.
  induction 1 as [|d kv degs kvs [A [B C]] F IH]; intros G r; cbn [check_kvs wanted].
  - f_equal. lia.
  - inversion G as [|? ? G1 G2]; subst.
    destruct (Z.ltb_spec d 0) as [?|_]; [lia|].
    rewrite (proj2 (knots_ok_spec _ kv)) by (split; assumption). cbn [negb].
    destruct (Z.ltb_spec (Z.of_nat (length kv)) (2 * (d + 1))) as [?|_]; [lia|].
    rewrite IH by exact G2. f_equal. lia.
Qed.

Lemma check_degrees_some degs : forall r q, check_degrees degs r = Some q ->
  Forall (fun d => (0 <= d)%Z) degs /\ q = (r * wanted degs None)%Z.
Proof.
  induction degs as [|d degs IH]; intros r q E; cbn [check_degrees wanted] in *.
  - injection E as <-. split; [constructor|lia].
  - destruct (Z.ltb_spec d 0) as [?|Hd]; [discriminate|].
    apply IH in E. destruct E as [E1 E2]. split; [constructor; assumption|lia].
Qed.
Lemma check_degrees_fits degs : Forall (fun d => (0 <= d)%Z) degs ->
  forall r, check_degrees degs r = Some (r * wanted degs None)%Z.
Proof.
  induction 1 as [|d degs A F IH]; intros r; cbn [check_degrees wanted].
  - f_equal. lia.
  - destruct (Z.ltb_spec d 0) as [?|_]; [lia|]. rewrite IH. f_equal. lia.
Qed.

Lemma rect_spec cps : rect cps = true <-> Forall (fun p => length p = dim_of cps) cps.
Proof.
  unfold rect. rewrite forallb_forall, Forall_forall.
  split; intros H p Hp; specialize (H p Hp); [apply Nat.eqb_eq in H|apply Nat.eqb_eq]; exact H.
Qed.

Lemma dim_of_uniform dim cps : cps <> [] -> Forall (fun p => length p = dim) cps -> dim_of cps = dim.
Proof. destruct cps as [|p cps]; [easy|]. intros _ H. inversion H; subst. reflexivity. Qed.

Definition kvs_sized (degs : list Z) (kvs : option (list (list Qc))) : Prop :=
  match kvs with Some k => length k = length degs | None => True end.

Lemma fits_sized degs kvs cps ws : consistent degs kvs cps ws -> kvs_sized degs kvs.
Proof.
  intros [_ [H _]]. destruct kvs as [kvs|]; [|exact I]. cbn. induction H; cbn; congruence.
Qed.

Lemma uniform_rect dim cps : Forall (fun p => length p = dim) cps -> rect cps = true.
Proof.
  intros H. apply rect_spec. destruct cps as [|p cps]; [constructor|].
  rewrite (dim_of_uniform dim); [exact H|easy|exact H].
Qed.

Lemma new_core_spec limit degs kvs cps ws s :
  kvs_sized degs kvs -> rect cps = true ->
  (new_core limit degs kvs cps ws = Some s <->
   consistent degs kvs cps ws /\ supported limit degs kvs cps /\
   s = Spl (make_axes degs kvs) cps ws).
Proof.
  intros Hs Hr. apply rect_spec in Hr. unfold new_core. split.
  - intros E.
    destruct (Nat.eqb_spec (dim_of cps) 0) as [?|Hd]; [discriminate|].
    destruct (match kvs with Some kvs => check_kvs degs kvs 1 | None => check_degrees degs 1 end)
      as [q|] eqn:C; [|discriminate].
    destruct (Z.eqb_spec (Z.of_nat (length cps)) q) as [Hq|?]; cbn [negb] in E; [|discriminate].
    assert (W : match ws with None => True | Some ws => length ws = length cps end).
    { destruct ws as [ws|]; [|exact I].
      destruct (Z.eqb_spec (Z.of_nat (length ws)) (Z.of_nat (length cps))); [lia|discriminate]. }
    replace (match ws with Some ws0 => negb (Z.of_nat (length ws0) =? Z.of_nat (length cps))%Z
                         | None => false end) with false in E.
    2:{ destruct ws as [ws|]; [|reflexivity]. rewrite W, Z.eqb_refl. reflexivity. }
    destruct (Nat.eqb_spec (length degs) 0) as [?|Hn]; [discriminate|].
    destruct (Nat.ltb_spec limit (length degs)) as [?|Hl]; [discriminate|]. cbn [orb] in E.
    assert (Hn' : degs <> []) by (intros ->; apply Hn; reflexivity).
    assert (P : exists dim, 0 < dim /\ Forall (fun p => length p = dim) cps).
    { exists (dim_of cps). split; [lia|exact Hr]. }
    destruct kvs as [kvs|].
    + apply check_kvs_some in C; [|exact Hs]. destruct C as [C1 [C2 C3]].
      injection E as <-. unfold consistent, supported.
      refine (conj (conj Hn' (conj C1 (conj P (conj _ W)))) (conj (conj Hl C2) eq_refl)). lia.
    + apply check_degrees_some in C. destruct C as [C1 C3].
      destruct (Nat.ltb_spec limit (dim_of cps)) as [?|Hd2]; [discriminate|].
      injection E as <-. unfold consistent, supported.
      refine (conj (conj Hn' (conj C1 (conj P (conj _ W)))) (conj (conj Hl _) eq_refl)); [lia|].
      eapply Forall_impl; [|exact Hr]. cbn. lia.
  - intros [[Hn [Hf [[dim [Hd Hp]] [Hc Hw]]]] [[Hl Hk] ->]].
    assert (Hcn : cps <> []).
    { intros ->. destruct kvs as [kvs|]; [apply wanted_pos_kvs in Hf|apply wanted_pos in Hf];
      cbn in Hc; lia. }
    assert (Hdim := dim_of_uniform _ _ Hcn Hp). rewrite Hdim.
    destruct (Nat.eqb_spec dim 0) as [?|_]; [lia|].
    replace (match kvs with Some kvs => check_kvs degs kvs 1 | None => check_degrees degs 1 end)
      with (Some (Z.of_nat (length cps))).
    2:{ destruct kvs as [kvs|].
        - rewrite (check_kvs_fits degs kvs Hf Hk). f_equal. lia.
        - rewrite (check_degrees_fits degs Hf). f_equal. lia. }
    rewrite Z.eqb_refl. cbn [negb].
    replace (match ws with Some ws0 => negb (Z.of_nat (length ws0) =? Z.of_nat (length cps))%Z
                         | None => false end) with false.
    2:{ destruct ws as [ws|]; [|reflexivity]. rewrite Hw, Z.eqb_refl. reflexivity. }
    destruct (Nat.eqb_spec (length degs) 0) as [?|_]; [destruct degs; [easy|discriminate]|].
    destruct (Nat.ltb_spec limit (length degs)) as [?|_]; [lia|]. cbn [orb].
    destruct kvs as [kvs|]; [reflexivity|].
    destruct (Nat.ltb_spec limit dim) as [?|_]; [|reflexivity].
    destruct cps as [|p cps]; [easy|]. inversion Hp; inversion Hk; subst. lia.
Qed.

Lemma make_axes_kvs degs kvs : Forall2 knots_fit degs kvs ->
  map (fun a => Z.of_nat (ax_degree a)) (make_axes degs (Some kvs)) = degs /\
  Forall2 (fun a kv => exists p, a = KnotAxis p kv) (make_axes degs (Some kvs)) kvs.
Proof.
  induction 1 as [|d kv degs kvs [A _] F [IH1 IH2]]; cbn [make_axes hd tl map]; [split; constructor|].
  split.
  - rewrite IH1. cbn [ax_degree]. f_equal. lia.
  - constructor; [eauto|exact IH2].
Qed.
Lemma make_axes_none degs : Forall (fun d => (0 <= d)%Z) degs ->
  map (fun a => Z.of_nat (ax_degree a)) (make_axes degs None) = degs /\
  Forall (fun a => exists p, a = BezierAxis p) (make_axes degs None).
Proof.
  induction 1 as [|d degs A F [IH1 IH2]]; cbn [make_axes map]; [split; constructor|].
  split.
  - rewrite IH1. cbn [ax_degree]. f_equal. lia.
  - constructor; [eauto|exact IH2].
Qed.

Lemma new_core_properties degs kvs cps ws : consistent degs kvs cps ws ->
  has_properties (Spl (make_axes degs kvs) cps ws) degs kvs cps ws.
Proof.
  intros [_ [H _]]. unfold has_properties. cbn [sp_axes sp_cps sp_weights].
  destruct kvs as [kvs|].
  - apply make_axes_kvs in H. destruct H. auto.
  - apply make_axes_none in H. destruct H. auto.
Qed.

Lemma properties_unique s s' degs kvs cps ws :
  has_properties s degs kvs cps ws -> has_properties s' degs kvs cps ws -> s = s'.
Proof.
  intros [A [B [C D]]] [A' [B' [C' D']]].
  destruct s as [ax p w], s' as [ax' p' w']. cbn [sp_axes sp_cps sp_weights] in *. subst p p' w w'.
  f_equal. rewrite <- A in A'. clear A.
  destruct kvs as [kvs|].
  - revert ax' A' B'. induction B as [|a kv ax kvs [q ->] F IH]; intros ax' A' B'.
    + inversion B'. reflexivity.
    + inversion B' as [|a' ? l' ? [q' ->] F']; subst. cbn [map ax_degree] in A'.
      injection A' as E1 E2. f_equal; [f_equal; lia|]. apply IH; auto.
  - revert ax' A' B'. induction B as [|a ax [q ->] F IH]; intros ax' A' B'.
    + destruct ax'; [reflexivity|discriminate].
    + destruct ax' as [|a' l']; [discriminate|]. inversion B' as [|? ? [q' ->] F']; subst.
      cbn [map ax_degree] in A'. injection A' as E1 E2. f_equal; [f_equal; lia|]. apply IH; auto.
Qed.

(** Construction from a complete set of properties. *)
Lemma construct_eq limit c i degs kvs cps ws : complete c i degs kvs cps ws ->
  (exists st, construct limit c i = Raised st /\
     ~ (kvs_sized degs kvs /\ rect cps = true /\
        match ws with None => True | Some w => length w = length cps end)) \/
  (kvs_sized degs kvs /\ rect cps = true /\
   exists p w, a_val p = cps /\ option_map a_val w = ws /\
     a_psa p = false /\ a_rw p = true /\
     (forall w', w = Some w' -> a_psa w' = false /\ a_rw w' = true) /\
     match new_core limit degs kvs cps ws with
     | None => exists st, construct limit c i = Raised st
     | Some s => exists fresh view,
         construct limit c i =
         Done (St (Some s) (Some degs) (option_map Own kvs) (Some p) w None view fresh) /\
         view = match c with CBSpline => Some (a_mem p) | _ => None end
     end).
Proof.
  intros [Hd [Hp Hk]].
  assert (Rd : rect cps = false \/ rect cps = true) by (destruct (rect cps); auto).
  destruct c; unfold construct; rewrite Hd, Hp; cbn.
  - destruct Hk as [-> ->]. cbn. destruct Rd as [R|R]; rewrite R; cbn.
    + left. eexists; split; [reflexivity|]. intros [_ [C _]]; discriminate.
    + right. split; [exact I|]. split; [reflexivity|]. exists (Arr false true 1 cps), None. cbn.
      repeat (split; [first [reflexivity|discriminate]|]).
      destruct (new_core limit degs None cps None); eauto.
  - destruct Hk as [-> [Hw Hi]]. rewrite Hi. destruct ws as [ws|]; [|easy]. cbn.
    destruct Rd as [R|R]; rewrite R; cbn.
    { left. eexists; split; [reflexivity|]. intros [_ [C _]]; discriminate. }
    unfold set_ws. cbn.
    destruct (Nat.eqb_spec (length cps) (length ws)) as [L|L]; cbn.
    2:{ left. eexists; split; [reflexivity|]. intros [_ [_ C]]; congruence. }
    right. split; [exact I|]. split; [reflexivity|].
    exists (Arr false true 1 cps), (Some (Arr false true 3 ws)). cbn.
    repeat (split; [first [reflexivity|intros ? [= <-]; split; reflexivity]|]).
    destruct (new_core limit degs None cps (Some ws)); eauto.
  - destruct Hk as [Hk [Hi ->]]. rewrite Hi. destruct kvs as [kvs|]; [|easy]. cbn.
    unfold set_kvs. cbn.
    destruct (Nat.eqb_spec (length kvs) (length degs)) as [L|L]; cbn.
    2:{ left. eexists; split; [reflexivity|]. intros [C _]; cbn in C; congruence. }
    destruct Rd as [R|R]; rewrite R; cbn.
    { left. eexists; split; [reflexivity|]. intros [_ [C _]]; discriminate. }
    right. split; [exact L|]. split; [reflexivity|].
    exists (Arr false true 1 cps), None. cbn.
    repeat (split; [first [reflexivity|discriminate]|]).
    destruct (new_core limit degs (Some kvs) cps None); eauto.
  - destruct Hk as [Hk [Hi [Hw Hj]]]. rewrite Hi, Hj. destruct kvs as [kvs|]; [|easy].
    destruct ws as [ws|]; [|easy]. cbn.
    unfold set_kvs. cbn.
    destruct (Nat.eqb_spec (length kvs) (length degs)) as [L|L]; cbn.
    2:{ left. eexists; split; [reflexivity|]. intros [C _]; cbn in C; congruence. }
    destruct Rd as [R|R]; rewrite R; cbn.
    { left. eexists; split; [reflexivity|]. intros [_ [C _]]; discriminate. }
    unfold set_ws. cbn.
    destruct (Nat.eqb_spec (length cps) (length ws)) as [L2|L2]; cbn.
    2:{ left. eexists; split; [reflexivity|]. intros [_ [_ C]]; congruence. }
    right. split; [exact L|]. split; [reflexivity|].
    exists (Arr false true 1 cps), (Some (Arr false true 3 ws)). cbn.
    repeat (split; [first [reflexivity|intros ? [= <-]; split; reflexivity]|]).
    destruct (new_core limit degs (Some kvs) cps (Some ws)); eauto.
Qed.

Lemma construct_accepts limit c i degs kvs cps ws : complete c i degs kvs cps ws ->
  forall s, built limit c i s <->
    consistent degs kvs cps ws /\ supported limit degs kvs cps /\
    has_properties s degs kvs cps ws.
Proof.
  intros H s. destruct (construct_eq limit c i degs kvs cps ws H) as [[st [E N]]|
    [Hs [Hr [p [w [Ep [Ew [_ [_ [_ M]]]]]]]]]].
  - unfold built. rewrite E. split; [intros [st' [? _]]; discriminate|].
    intros [C _]. exfalso. apply N.
    split; [eapply fits_sized; exact C|]. destruct C as [_ [_ [[dim [_ U]] [_ W]]]].
    split; [eapply uniform_rect; exact U|exact W].
  - assert (NS := new_core_spec limit degs kvs cps ws).
    destruct (new_core limit degs kvs cps ws) as [s0|].
    + destruct M as [fr [vw [M _]]]. unfold built. rewrite M.
      destruct (proj1 (NS s0 Hs Hr) eq_refl) as [C [Su E]].
      assert (P0 : has_properties s0 degs kvs cps ws)
        by (rewrite E; apply new_core_properties; exact C).
      split.
      * intros [st [[= <-] Es]]. cbn in Es. injection Es as <-. auto.
      * intros [_ [_ P]]. eexists. split; [reflexivity|]. cbn. f_equal.
        eapply properties_unique; eauto.
    + destruct M as [st M]. unfold built. rewrite M. split; [intros [? [? _]]; discriminate|].
      intros [C [Su P]]. destruct (NS s Hs Hr) as [_ B].
      discriminate B. split; [exact C|split; [exact Su|]].
      eapply properties_unique; [exact P|apply new_core_properties; exact C].
Qed.

Lemma construct_rejects limit c i degs kvs cps ws : complete c i degs kvs cps ws ->
  (rejected limit c i <-> ~ (consistent degs kvs cps ws /\ supported limit degs kvs cps)).
Proof.
  intros H. split.
  - intros [st E] [C Su].
    destruct (proj2 (construct_accepts limit c i degs kvs cps ws H _)
                (conj C (conj Su (new_core_properties _ _ _ _ C)))) as [st' [E' _]]. congruence.
  - intros N. destruct (construct_eq limit c i degs kvs cps ws H) as [[st [E _]]|
      [Hs [Hr [p [w [_ [_ [_ [_ [_ M]]]]]]]]]].
    + exists st. exact E.
    + assert (NS := new_core_spec limit degs kvs cps ws).
      destruct (new_core limit degs kvs cps ws) as [s0|]; [|exact M].
      exfalso. apply N. destruct (proj1 (NS s0 Hs Hr) eq_refl) as [C [Su _]]. auto.
Qed.

Lemma construct_missing limit c i : missing c i ->
  forall st, construct limit c i = Done st \/ construct limit c i = Raised st -> s_core st = None.
Proof.
  intros M st. destruct i as [[d|] [k|] [p|] [w|]], c; unfold missing in M; cbn in M;
    try (exfalso; repeat match goal with
                         | H : _ \/ _ |- _ => destruct H
                         | H : _ /\ _ |- _ => destruct H
                         end; discriminate);
    unfold construct; cbn;
    repeat match goal with
           | |- context [if negb ?b then _ else _] => destruct b; cbn; unfold set_ws; cbn
           end;
    intros [E|E]; try discriminate E; injection E as <-; reflexivity.
Qed.
