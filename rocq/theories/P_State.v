(** Proofs about the property cache: invariant over sequences of operations. *)
From Coq Require Import List Arith ZArith Bool QArith Qcanon Lia.
From Verif Require Import Base BaseQc S_Spline S_Value M_Core S_Core P_Core.
Import ListNotations.
Local Open Scope nat_scope.

Definition is_knot (a : paxis) : Prop := exists p kv, a = KnotAxis p kv.
Definition is_bez (a : paxis) : Prop := exists p, a = BezierAxis p.

Definition kind (c : cls) (s : spline) : Prop :=
  sp_axes s <> [] /\
  (if needs_kvs c then Forall is_knot (sp_axes s) else Forall is_bez (sp_axes s)) /\
  (if needs_ws c then exists w, sp_weights s = Some w else sp_weights s = None).

Lemma kind_has_kvs c s : kind c s -> has_kvs s = needs_kvs c.
Proof.
  intros [A [B _]]. unfold has_kvs. destruct (sp_axes s) as [|a l]; [easy|].
  destruct (needs_kvs c); inversion B as [|? ? H]; subst; destruct H as [p H]; [destruct H as [kv ->]|subst];
  reflexivity.
Qed.

Lemma knot_axes_kvs axes kvs :
  Forall2 (fun a kv => exists p, a = KnotAxis p kv) axes kvs <->
  Forall is_knot axes /\ map ax_kv axes = kvs.
Proof.
  split.
  - induction 1 as [|a kv axes kvs [p ->] F [I1 I2]]; [split; constructor|].
    split; [constructor; [exists p, kv; reflexivity|exact I1]|cbn; f_equal; exact I2].
  - intros [F <-]. induction F as [|a axes [p [kv ->]] F IH]; cbn; constructor; [exists p; reflexivity|exact IH].
Qed.

Lemma new_core_some limit degs kvs cps ws s : kvs_sized degs kvs ->
  new_core limit degs kvs cps ws = Some s -> has_properties s degs kvs cps ws /\ degs <> [].
Proof.
  intros Hs E. unfold new_core in E.
  destruct (dim_of cps =? 0); [discriminate|].
  destruct (match kvs with Some kvs => check_kvs degs kvs 1 | None => check_degrees degs 1 end)
    as [q|] eqn:C; [|discriminate].
  destruct (negb _); [discriminate|].
  destruct (match ws with Some ws0 => _ | None => _ end); [discriminate|].
  destruct (Nat.eqb_spec (length degs) 0) as [?|Hn]; [discriminate|].
  destruct (_ || _); [discriminate|].
  assert (Hn' : degs <> []) by (intros ->; apply Hn; reflexivity).
  destruct kvs as [kvs|].
  - apply check_kvs_some in C; [|exact Hs]. destruct C as [C _]. injection E as <-.
    split; [|exact Hn'].
    apply make_axes_kvs in C. destruct C. unfold has_properties. cbn [sp_axes sp_cps sp_weights]. auto.
  - apply check_degrees_some in C. destruct C as [C _].
    destruct (limit <? dim_of cps); [discriminate|]. injection E as <-.
    split; [|exact Hn'].
    apply make_axes_none in C. destruct C. unfold has_properties. cbn [sp_axes sp_cps sp_weights]. auto.
Qed.

(** * The invariant.  [f_det]: knots were possibly detached; [f_cac]:
    multi_index possibly cached; [f_sy], [f_mo], [f_wr], [f_ad], [f_ac], [f_aw]:
    which of the conditional parts are tracked. *)
Record flags := Fl { f_sy : bool; f_mo : bool; f_wr : bool; f_det : bool; f_cac : bool;
                     f_ad : bool; f_ac : bool; f_aw : bool; f_al : bool }.

Definition lengths (k : list (list Qc)) : list nat := map (@length Qc) k.

Record inv (c : cls) (F : flags) (st : state) (s : spline) : Prop := Inv
  { i_core : s_core st = Some s;
    i_kind : kind c s;
    i_deg : f_ad F = true -> forall d, s_deg st = Some d -> d = core_degrees s;
    i_cps : f_ac F = true -> forall a, s_cps st = Some a -> a_val a = sp_cps s;
    i_ws : f_aw F = true -> needs_ws c = true ->
           forall a, s_ws st = Some a -> Some (a_val a) = sp_weights s;
    i_len : forall k, s_kvs st = Some (Stale k) ->
            lengths k = lengths (core_kvs s) /\ f_det F = true;
    i_bez : needs_kvs c = false -> s_kvs st = None \/ exists k, s_kvs st = Some (Own k);
    i_kvs : f_sy F = true -> forall k, s_kvs st = Some (Stale k) -> k = core_kvs s;
    i_mi : f_mo F = true -> forall m, s_mi st = Some m -> m = sp_res s /\ f_cac F = true;
    i_alive : f_al F = true -> alive st;
    i_view : needs_ws c = true -> s_view st = None;
    i_rw : f_wr F = true -> (forall a, s_cps st = Some a -> a_rw a = true) /\
             (needs_ws c = true -> is_psa (s_cps st) = is_psa (s_ws st) /\
                                   forall a, s_ws st = Some a -> a_rw a = true) }.
Arguments i_core {c F st s}. Arguments i_kind {c F st s}. Arguments i_deg {c F st s}.
Arguments i_cps {c F st s}. Arguments i_ws {c F st s}. Arguments i_len {c F st s}.
Arguments i_bez {c F st s}. Arguments i_kvs {c F st s}. Arguments i_mi {c F st s}.
Arguments i_view {c F st s}. Arguments i_alive {c F st s}. Arguments i_rw {c F st s}.

Lemma lengths_length a b : lengths a = lengths b -> length a = length b.
Proof. intros H. apply (f_equal (@length _)) in H. unfold lengths in H. rewrite !map_length in H. exact H. Qed.

Ltac st_crush :=
  cbn [s_core s_deg s_kvs s_cps s_ws s_mi s_view s_fresh set_kvdata] in *.

Section Getters.
  Context (c : cls) (F : flags) (s : spline).
  Notation I := (inv c F).

  Lemma inv_degrees st : I st s -> I (snd (get_degrees st)) s.
  Proof.
    intros H. unfold get_degrees. destruct (s_deg st) as [d|] eqn:E; [exact H|].
    rewrite (i_core H). cbn [snd].
    destruct H. constructor; st_crush; auto. intros _ d [= <-]. reflexivity.
  Qed.

  Lemma inv_kvs st : I st s -> I (snd (get_kvs st)) s.
  Proof.
    intros H. unfold get_kvs. rewrite (i_core H).
    rewrite (kind_has_kvs c s (i_kind H)). destruct (needs_kvs c) eqn:R; cbn [negb]; [|exact H].
    destruct (s_kvs st) as [[k| |k]|] eqn:E; try exact H;
      cbn [snd]; destruct H; constructor; st_crush; auto; intros; discriminate || congruence.
  Qed.

  Lemma inv_prepare_rational st : needs_ws c = true ->
    (f_wr F = true -> is_psa (s_cps st) = false) -> I st s -> I (prepare st) s.
  Proof.
    intros R NP H. unfold prepare. rewrite (i_core H).
    destruct (i_kind H) as [_ [_ K]]. rewrite R in K. destruct K as [w K]. rewrite K.
    destruct H as [Hc Hk Hd Hp Hw Hl Hb Hs Hm Ha Hv Hr].
    assert (A : forall st', s_view st' = s_view st -> alive st').
    { intros st' E. unfold alive. rewrite E, (Hv R). exact Logic.I. }
    assert (FR : I (St (Some s) (s_deg st) (s_kvs st)
        (Some (psa_view (Arr false true (s_fresh st) (sp_cps s))))
        (Some (psa_view (Arr false true (S (s_fresh st)) w))) (s_mi st) (s_view st)
        (S (S (s_fresh st)))) s).
    { constructor; st_crush; auto.
      - intros _ a [= <-]. reflexivity.
      - intros _ _ a [= <-]. cbn. auto.
      - intros _. split; [|intros _; split; [reflexivity|]]; intros a [= <-]; reflexivity. }
    destruct (s_cps st) as [p|] eqn:Ep; [|exact FR].
    destruct (s_ws st) as [q|] eqn:Eq; [|exact FR].
    constructor; st_crush; auto.
    - intros Fa a [= <-]. exact (Hp Fa p eq_refl).
    - intros Fa _ a [= <-]. exact (Hw Fa R q eq_refl).
    - intros Wr. destruct (Hr Wr) as [Hr1 Hr2]. destruct (Hr2 R) as [Hr3 Hr4]. specialize (NP Wr).
      cbn in NP, Hr3. cbn [is_psa].
      split; [|intros _; split; [reflexivity|]]; intros a [= <-]; unfold psa_view; cbn [a_rw].
      + rewrite NP. apply Hr1. reflexivity.
      + rewrite <- Hr3, NP. apply Hr4. reflexivity.
  Qed.

  Lemma inv_prepare_plain st : needs_ws c = false ->
    (f_wr F = true -> is_psa (s_cps st) = false) -> I st s -> I (prepare st) s.
  Proof.
    intros R NP H. unfold prepare. rewrite (i_core H).
    destruct (i_kind H) as [_ [_ K]]. rewrite R in K. rewrite K.
    destruct H as [Hc Hk Hd Hp Hw Hl Hb Hs Hm Ha Hv Hr].
    constructor; st_crush; auto.
    - intros Fa a [= <-]. destruct (s_cps st) as [p|]; [exact (Hp Fa p eq_refl)|reflexivity].
    - intros Fa. specialize (Ha Fa). unfold alive in *. st_crush. destruct (s_view st); [|exact Logic.I].
      destruct Ha as [a [E1 E2]]. rewrite E1. exists (psa_view a). auto.
    - intros Wr. destruct (Hr Wr) as [Hr1 _]. specialize (NP Wr).
      split; [|intros; congruence]. intros a [= <-].
      destruct (s_cps st) as [p|]; [|reflexivity]. cbn in NP. unfold psa_view. cbn [a_rw].
      rewrite NP. apply Hr1. reflexivity.
  Qed.

  Lemma inv_get_cps st : I st s -> I (snd (get_cps st)) s.
  Proof.
    intros H. unfold get_cps. cbn [snd]. destruct (is_psa (s_cps st)) eqn:E; [exact H|].
    destruct (needs_ws c) eqn:R; [apply inv_prepare_rational|apply inv_prepare_plain]; auto.
  Qed.

  Lemma inv_get_ws st : (needs_ws c = true \/ f_wr F = false) -> I st s -> I (snd (get_ws st)) s.
  Proof.
    intros HW H. unfold get_ws. cbn [snd]. destruct (is_psa (s_ws st)) eqn:E; [exact H|].
    destruct (needs_ws c) eqn:R; [apply inv_prepare_rational|apply inv_prepare_plain]; auto.
    - intros Wr. destruct (i_rw H Wr) as [_ B]. rewrite (proj1 (B R)). exact E.
    - intros Wr. destruct HW; congruence.
  Qed.

  Definition cached (F : flags) : flags :=
    Fl (f_sy F) (f_mo F) (f_wr F) (f_det F) true (f_ad F) (f_ac F) (f_aw F) (f_al F).

  Lemma inv_mi st : I st s -> inv c (cached F) (snd (get_mi st)) s.
  Proof.
    intros H. unfold get_mi. destruct (s_mi st) as [m|] eqn:E.
    - cbn [snd]. destruct H; constructor; auto. intros M m' Em. destruct (i_mi0 M m' Em). auto.
    - rewrite (i_core H). cbn [snd].
      destruct H. constructor; st_crush; auto. intros _ m [= <-]. auto.
  Qed.

  (** What the getters return. *)
  Lemma read_degrees st : f_ad F = true -> I st s -> fst (get_degrees st) = Some (core_degrees s).
  Proof.
    intros Fa H. unfold get_degrees. destruct (s_deg st) as [d|] eqn:E.
    - cbn. f_equal. apply (i_deg H Fa). exact E.
    - rewrite (i_core H). reflexivity.
  Qed.
  Lemma read_cps st : f_ac F = true -> I st s -> fst (get_cps st) = Some (sp_cps s).
  Proof.
    intros Fa H. assert (G := inv_get_cps st H).
    assert (E : exists a, s_cps (snd (get_cps st)) = Some a).
    { unfold get_cps. cbn [snd]. destruct (is_psa (s_cps st)) eqn:E.
      - destruct (s_cps st); [eauto|discriminate].
      - unfold prepare. rewrite (i_core H).
        destruct (sp_weights s); [destruct (s_cps st), (s_ws st)|]; cbn; eauto. }
    destruct E as [a E]. transitivity (option_map a_val (s_cps (snd (get_cps st)))); [reflexivity|].
    rewrite E. cbn. f_equal. apply (i_cps G Fa). exact E.
  Qed.
  Lemma ws_present st : needs_ws c = true -> I st s -> exists a, s_ws (snd (get_ws st)) = Some a.
  Proof.
    intros R H. destruct (i_kind H) as [_ [_ K]]. rewrite R in K. destruct K as [w K].
    unfold get_ws. cbn [snd]. destruct (is_psa (s_ws st)) eqn:E.
    - destruct (s_ws st); [eauto|discriminate].
    - unfold prepare. rewrite (i_core H), K.
      destruct (s_cps st), (s_ws st); cbn; eauto.
  Qed.
  Lemma cps_present st : I st s -> exists a, s_cps (snd (get_cps st)) = Some a.
  Proof.
    intros H. unfold get_cps. cbn [snd]. destruct (is_psa (s_cps st)) eqn:E.
    - destruct (s_cps st); [eauto|discriminate].
    - unfold prepare. rewrite (i_core H).
      destruct (sp_weights s); [destruct (s_cps st), (s_ws st)|]; cbn; eauto.
  Qed.
  Lemma read_ws st : f_aw F = true -> needs_ws c = true -> I st s -> fst (get_ws st) = sp_weights s.
  Proof.
    intros Fa R H. assert (G := inv_get_ws st (or_introl R) H).
    destruct (ws_present st R H) as [a E].
    transitivity (option_map a_val (s_ws (snd (get_ws st)))); [reflexivity|].
    rewrite E. cbn. apply (i_ws G Fa R); exact E.
  Qed.
  Lemma read_kvs st : needs_kvs c = true -> f_sy F = true -> I st s -> fst (get_kvs st) = Some (core_kvs s).
  Proof.
    intros R S' H. unfold get_kvs. rewrite (i_core H).
    rewrite (kind_has_kvs c s (i_kind H)), R. cbn [negb].
    destruct (s_kvs st) as [[k| |k]|] eqn:E; try reflexivity.
    cbn. f_equal. apply (i_kvs H S'). exact E.
  Qed.
  Lemma read_mi st : f_mo F = true -> I st s -> fst (get_mi st) = Some (sp_res s).
  Proof.
    intros M H. unfold get_mi. destruct (s_mi st) as [m|] eqn:E.
    - cbn. f_equal. apply (i_mi H M). exact E.
    - rewrite (i_core H). reflexivity.
  Qed.
End Getters.

(** * Creating a new core *)

Definition all_agree (F : flags) : flags :=
  Fl (f_sy F) (f_mo F) (f_wr F) (f_det F) (f_cac F) true true true true.

Definition res_from (b : bool) (d : list Z) (l : list nat) : list nat :=
  if b then map (fun dl => snd dl - Z.to_nat (fst dl) - 1) (combine d l)
  else map (fun d => Z.to_nat d + 1) d.

Lemma res_of_kind c s : kind c s ->
  sp_res s = res_from (needs_kvs c) (core_degrees s) (lengths (core_kvs s)).
Proof.
  intros [_ [K _]]. unfold sp_res, core_degrees, core_kvs, lengths, res_from.
  destruct (needs_kvs c).
  - induction K as [|a l [p [kv ->]] K IH]; [reflexivity|].
    cbn [map combine fst snd ax_n ax_degree ax_kv]. rewrite IH. f_equal. rewrite Nat2Z.id. reflexivity.
  - induction K as [|a l [p ->] K IH]; [reflexivity|].
    cbn [map ax_n ax_degree]. rewrite IH, Nat2Z.id. reflexivity.
Qed.

Lemma properties_kind c s d kvs cps ws : d <> [] ->
  has_properties s d kvs cps ws ->
  (needs_kvs c = true <-> kvs <> None) -> (needs_ws c = true <-> ws <> None) ->
  kind c s /\ core_degrees s = d /\ sp_cps s = cps /\ sp_weights s = ws /\
  (forall k, kvs = Some k -> core_kvs s = k).
Proof.
  intros Hn [A [B [C D]]] Hk Hw.
  assert (Hax : sp_axes s <> []) by (intros E; rewrite E in A; cbn in A; congruence).
  split; [split; [exact Hax|split]|].
  - destruct kvs as [kvs|].
    + rewrite (proj2 Hk) by discriminate. apply knot_axes_kvs in B. apply B.
    + destruct (needs_kvs c); [destruct (proj1 Hk eq_refl eq_refl)|exact B].
  - rewrite D. destruct ws as [ws|].
    + rewrite (proj2 Hw) by discriminate. eauto.
    + destruct (needs_ws c); [destruct (proj1 Hw eq_refl eq_refl)|reflexivity].
  - repeat (split; [assumption|]). intros k ->. apply knot_axes_kvs in B. apply B.
Qed.

Lemma new_core_py_inv limit c F st st' s0 d p :
  inv c F st s0 -> s_deg st = Some d -> s_cps st = Some p ->
  (needs_kvs c = true -> exists k, kv_value st = Some k /\ length k = length d) ->
  (needs_ws c = true -> exists w, s_ws st = Some w) ->
  (f_mo F = true -> s_mi st = None \/
     (d = core_degrees s0 /\
      (needs_kvs c = true -> exists k, kv_value st = Some k /\ lengths k = lengths (core_kvs s0)))) ->
  (f_det F = true \/ exists k, s_kvs st = Some (Own k)) ->
  new_core_py limit c st = Done st' ->
  exists s', inv c (all_agree F) st' s' /\ core_degrees s' = d /\ sp_cps s' = a_val p /\
    (needs_kvs c = true -> kv_value st = Some (core_kvs s')) /\
    (needs_ws c = true -> sp_weights s' = option_map a_val (s_ws st)).
Proof.
  intros H Ed Ep HK HW HM HD E. unfold new_core_py in E. rewrite Ed, Ep in E.
  set (kvs := if needs_kvs c then kv_value st else None) in *.
  set (ws := if needs_ws c then s_ws st else None) in *.
  assert (Hk : needs_kvs c = true <-> kvs <> None).
  { unfold kvs. destruct (needs_kvs c); [|split; congruence].
    destruct (HK eq_refl) as [k [Ek _]]. rewrite Ek. split; congruence. }
  assert (Hw : needs_ws c = true <-> option_map a_val ws <> None).
  { unfold ws. destruct (needs_ws c); [|split; cbn; congruence].
    destruct (HW eq_refl) as [w Ew]. rewrite Ew. cbn. split; congruence. }
  assert (Hsz : kvs_sized d kvs).
  { unfold kvs. destruct (needs_kvs c); [|exact I].
    destruct (HK eq_refl) as [k [Ek L]]. rewrite Ek. exact L. }
  destruct (_ || _) eqn:Inc in E.
  { exfalso. apply orb_true_iff in Inc. destruct Inc as [Inc|Inc]; apply andb_true_iff in Inc;
    destruct Inc as [B Inc].
    - apply Hk in B. destruct kvs; [discriminate|easy].
    - apply Hw in B. destruct ws; [discriminate|easy]. }
  clear Inc.
  destruct (new_core limit d kvs (a_val p) (option_map a_val ws)) as [s'|] eqn:N; [|discriminate].
  injection E as <-.
  apply new_core_some in N; [|exact Hsz]. destruct N as [N Hn].
  destruct (properties_kind c s' d kvs (a_val p) (option_map a_val ws) Hn N Hk Hw)
    as [K [Kd [Kp [Kw Kk]]]].
  exists s'.
  assert (KV : needs_kvs c = true -> kv_value st = Some (core_kvs s')).
  { intros B. destruct (HK B) as [k [Ek _]]. rewrite Ek. f_equal. symmetry. apply Kk.
    unfold kvs. rewrite B. exact Ek. }
  assert (KW : needs_ws c = true -> sp_weights s' = option_map a_val (s_ws st)).
  { intros B. rewrite Kw. unfold ws. rewrite B. reflexivity. }
  refine (conj _ (conj Kd (conj Kp (conj KV KW)))).
  (* stale knots of the new state are the new core's *)
  assert (ST : forall k, match s_kvs st, s_core st with
               | Some Live, Some old => Some (Stale (core_kvs old)) | k, _ => k end = Some (Stale k) ->
               k = core_kvs s' /\ f_det F = true).
  { intros k Ek. destruct (needs_kvs c) eqn:B.
    - specialize (KV eq_refl). unfold kv_value in KV. rewrite (i_core H) in *.
      destruct (s_kvs st) as [[k0| |k0]|] eqn:S0; cbn in KV; try discriminate.
      + injection Ek as <-. injection KV as <-. split; [reflexivity|].
        destruct HD as [?|[k1 ?]]; [assumption|congruence].
      + injection Ek as <-. injection KV as <-. split; [reflexivity|].
        destruct HD as [?|[k1 ?]]; [assumption|congruence].
    - destruct (i_bez H B) as [Z|[k0 Z]]; rewrite Z in Ek; discriminate. }
  constructor; cbn [f_sy f_mo f_wr f_det f_cac f_ad f_ac f_aw f_al all_agree]; st_crush.
  - reflexivity.
  - exact K.
  - intros _ d' E'. congruence.
  - intros _ a [= <-]. cbn. congruence.
  - intros _ B a Ea. rewrite B in Ea. rewrite (KW B).
    destruct (s_ws st) as [w|]; [|discriminate]. injection Ea as <-. reflexivity.
  - intros k Ek. destruct (ST k Ek) as [-> D]. auto.
  - intros B. destruct (i_bez H B) as [Z|[k Z]]; rewrite Z; eauto.
  - intros _ k Ek. apply ST. exact Ek.
  - intros M m Em. destruct (HM M) as [Z|[Z1 Z2]]; [congruence|].
    destruct (i_mi H M m Em) as [-> Cc]. split; [|exact Cc].
    rewrite (res_of_kind c s0 (i_kind H)), (res_of_kind c s' K), Kd, <- Z1.
    destruct (needs_kvs c) eqn:B; [|reflexivity].
    destruct (Z2 eq_refl) as [k [Ek L]]. rewrite (KV eq_refl) in Ek. injection Ek as <-.
    rewrite L. reflexivity.
  - intros _. unfold alive. st_crush. destruct c; try exact I. exists (plain p). auto.
  - intros B. destruct c; try discriminate; reflexivity.
  - intros Wr. destruct (i_rw H Wr) as [R1 R2]. split.
    + intros a [= <-]. cbn. apply R1. exact Ep.
    + intros B. destruct (R2 B) as [R3 R4]. rewrite B. split.
      * destruct (s_ws st); reflexivity.
      * intros a Ea. destruct (s_ws st) as [w|]; [|discriminate]. injection Ea as <-.
        cbn. apply R4. reflexivity.
Qed.

(** * The getters called before a new core is created *)

Definition gather (c : cls) (exclude : prop) (st : state) : state :=
  let st := match exclude with PDegrees => st | _ => snd (get_degrees st) end in
  let st := if needs_kvs c then match exclude with PKvs => st | _ => snd (get_kvs st) end
            else st in
  let st := match exclude with PCps => st | _ => snd (get_cps st) end in
  if needs_ws c then match exclude with PWs => st | _ => snd (get_ws st) end else st.

Lemma safe_gather limit c ex st s : s_core st = Some s ->
  safe_new_core limit c ex st = new_core_py limit c (gather c ex st).
Proof. intros E. unfold safe_new_core, gather. rewrite E. reflexivity. Qed.

Definition same_rest (st st' : state) : Prop :=
  s_core st' = s_core st /\ s_mi st' = s_mi st /\ s_view st' = s_view st.

Lemma degrees_keeps st : same_rest st (snd (get_degrees st)) /\
  s_kvs (snd (get_degrees st)) = s_kvs st /\ s_cps (snd (get_degrees st)) = s_cps st /\
  s_ws (snd (get_degrees st)) = s_ws st.
Proof. unfold get_degrees, same_rest. destruct (s_deg st), (s_core st) eqn:E; cbn; auto. Qed.

Lemma kvs_keeps st : same_rest st (snd (get_kvs st)) /\
  s_deg (snd (get_kvs st)) = s_deg st /\ s_cps (snd (get_kvs st)) = s_cps st /\
  s_ws (snd (get_kvs st)) = s_ws st.
Proof.
  unfold get_kvs, same_rest. destruct (s_core st) eqn:E; cbn; [|auto].
  destruct (negb (has_kvs s)); cbn; [auto|]. destruct (s_kvs st) as [[k| |k]|]; cbn; auto.
Qed.

Lemma prepare_keeps st : same_rest st (prepare st) /\
  s_deg (prepare st) = s_deg st /\ s_kvs (prepare st) = s_kvs st /\
  (s_cps st <> None -> s_cps (prepare st) <> None) /\
  (s_ws st <> None -> s_ws (prepare st) <> None).
Proof.
  unfold prepare, same_rest. destruct (s_core st) as [s|] eqn:E; cbn; [|auto 10].
  destruct (sp_weights s); [destruct (s_cps st), (s_ws st)|]; cbn; repeat split; auto; discriminate.
Qed.

Lemma cps_keeps st : same_rest st (snd (get_cps st)) /\
  s_deg (snd (get_cps st)) = s_deg st /\ s_kvs (snd (get_cps st)) = s_kvs st /\
  (s_cps st <> None -> s_cps (snd (get_cps st)) <> None) /\
  (s_ws st <> None -> s_ws (snd (get_cps st)) <> None).
Proof.
  unfold get_cps. cbn [snd]. destruct (is_psa (s_cps st)); [|apply prepare_keeps].
  unfold same_rest. auto 10.
Qed.
Lemma ws_keeps st : same_rest st (snd (get_ws st)) /\
  s_deg (snd (get_ws st)) = s_deg st /\ s_kvs (snd (get_ws st)) = s_kvs st /\
  (s_cps st <> None -> s_cps (snd (get_ws st)) <> None) /\
  (s_ws st <> None -> s_ws (snd (get_ws st)) <> None).
Proof.
  unfold get_ws. cbn [snd]. destruct (is_psa (s_ws st)); [|apply prepare_keeps].
  unfold same_rest. auto 10.
Qed.

Lemma same_trans a b d : same_rest a b -> same_rest b d -> same_rest a d.
Proof. unfold same_rest. intros [A [B C]] [A' [B' C']]. split; [|split]; congruence. Qed.

Lemma kv_value_eq st st' : s_core st' = s_core st -> s_kvs st' = s_kvs st -> kv_value st' = kv_value st.
Proof. unfold kv_value. intros -> ->. reflexivity. Qed.

Lemma kvs_gathered c F st s : inv c F st s -> needs_kvs c = true ->
  exists k, kv_value (snd (get_kvs st)) = Some k /\ fst (get_kvs st) = Some k /\
    lengths k = lengths (core_kvs s) /\ (f_sy F = true -> k = core_kvs s).
Proof.
  intros H R. unfold get_kvs, kv_value. rewrite (i_core H), (kind_has_kvs c s (i_kind H)), R. cbn [negb].
  destruct (s_kvs st) as [[k| |k]|] eqn:E; cbn [fst snd]; st_crush; rewrite ?E, ?(i_core H); cbn [option_map];
    eexists; repeat (split; [reflexivity|]); try (split; reflexivity); try (split; [reflexivity|auto]).
  split; [apply (i_len H _ E)|]. intros Sy. apply (i_kvs H Sy _ E).
Qed.

(** Facts about the gathered state. *)
Lemma gather_spec c F ex st s : inv c F st s ->
  (ex = PDegrees -> s_deg st <> None) -> (ex = PCps -> s_cps st <> None) ->
  (ex = PWs -> s_ws st <> None) ->
  let g := gather c ex st in
  inv c F g s /\ same_rest st g /\
  (exists d, s_deg g = Some d /\ (s_deg st = Some d \/ (s_deg st = None /\ d = core_degrees s))) /\
  (exists p, s_cps g = Some p) /\
  (needs_ws c = true -> exists w, s_ws g = Some w) /\
  (ex = PKvs -> s_kvs g = s_kvs st) /\
  (ex <> PKvs -> needs_kvs c = true ->
     exists k, kv_value g = Some k /\ fst (get_kvs st) = Some k /\
               lengths k = lengths (core_kvs s) /\ (f_sy F = true -> k = core_kvs s)).
Proof.
  intros H PD PC PW. unfold gather.
  set (st1 := match ex with PDegrees => st | _ => snd (get_degrees st) end).
  assert (H1 : inv c F st1 s) by (unfold st1; destruct ex; auto using inv_degrees).
  assert (K1 : same_rest st st1 /\ s_kvs st1 = s_kvs st /\ s_cps st1 = s_cps st /\ s_ws st1 = s_ws st).
  { unfold st1. destruct ex; try apply degrees_keeps. unfold same_rest. auto 10. }
  assert (D1 : exists d, s_deg st1 = Some d /\ (s_deg st = Some d \/ (s_deg st = None /\ d = core_degrees s))).
  { unfold st1. destruct ex; unfold get_degrees; try rewrite (i_core H);
      destruct (s_deg st) as [d|] eqn:E; cbn; eauto. destruct (PD eq_refl eq_refl). }
  clearbody st1.
  set (st2 := if needs_kvs c then match ex with PKvs => st1 | _ => snd (get_kvs st1) end else st1).
  assert (H2 : inv c F st2 s) by (unfold st2; destruct (needs_kvs c), ex; auto using inv_kvs).
  assert (K2 : same_rest st1 st2 /\ s_deg st2 = s_deg st1 /\ s_cps st2 = s_cps st1 /\ s_ws st2 = s_ws st1).
  { unfold st2. destruct (needs_kvs c), ex; try apply kvs_keeps; unfold same_rest; auto 10. }
  assert (V2 : (ex = PKvs -> s_kvs st2 = s_kvs st1) /\
     (ex <> PKvs -> needs_kvs c = true ->
       exists k, kv_value st2 = Some k /\ fst (get_kvs st1) = Some k /\
               lengths k = lengths (core_kvs s) /\ (f_sy F = true -> k = core_kvs s))).
  { split; unfold st2.
    - intros ->. destruct (needs_kvs c); reflexivity.
    - intros NE R. destruct (kvs_gathered c F st1 s H1 R) as [k Hk]. exists k. rewrite R.
      destruct ex; try exact Hk. easy. }
  clearbody st2.
  set (st3 := match ex with PCps => st2 | _ => snd (get_cps st2) end).
  assert (H3 : inv c F st3 s) by (unfold st3; destruct ex; auto using inv_get_cps).
  assert (K3 : same_rest st2 st3 /\ s_deg st3 = s_deg st2 /\ s_kvs st3 = s_kvs st2 /\
               (s_ws st2 <> None -> s_ws st3 <> None)).
  { unfold st3. destruct ex; try (destruct (cps_keeps st2) as [A [B [C [D E]]]]; auto).
    unfold same_rest. auto 10. }
  assert (P3 : s_cps st3 <> None).
  { unfold st3. destruct ex; try (destruct (cps_present c F s st2 H2) as [p E]; rewrite E; discriminate).
    destruct K2 as [_ [_ [E _]]], K1 as [_ [_ [E' _]]]. rewrite E, E'. auto. }
  clearbody st3.
  set (st4 := if needs_ws c then match ex with PWs => st3 | _ => snd (get_ws st3) end else st3).
  assert (H4 : inv c F st4 s).
  { unfold st4. destruct (needs_ws c) eqn:R, ex; auto; apply inv_get_ws; auto. }
  assert (K4 : same_rest st3 st4 /\ s_deg st4 = s_deg st3 /\ s_kvs st4 = s_kvs st3).
  { unfold st4. destruct (needs_ws c), ex; try (destruct (ws_keeps st3) as [A [B [C [D E]]]]; auto);
    unfold same_rest; auto 10. }
  assert (P4 : s_cps st4 <> None).
  { unfold st4. destruct (needs_ws c), ex; auto; destruct (ws_keeps st3) as [A [B [C [D E]]]]; auto. }
  assert (W4 : needs_ws c = true -> exists w, s_ws st4 = Some w).
  { intros R. unfold st4. rewrite R.
    destruct ex; try apply (ws_present c F s st3 R H3).
    destruct (s_ws st3) as [w|] eqn:E; [eauto|]. exfalso.
    destruct K1 as [_ [_ [_ E1]]], K2 as [_ [_ [_ E2]]], K3 as [_ [_ [_ E3]]].
    apply E3; [|reflexivity]. rewrite E2, E1. auto. }
  clearbody st4. cbn zeta.
  destruct K1 as [S1 [A1 [B1 C1]]], K2 as [S2 [A2 [B2 C2]]], K3 as [S3 [A3 [B3 C3]]], K4 as [S4 [A4 B4]].
  split; [exact H4|]. split; [eauto using same_trans|]. split.
  { destruct D1 as [d [E1 E2]]. exists d. split; [congruence|exact E2]. }
  split. { destruct (s_cps st4); [eauto|easy]. }
  split; [exact W4|].
  destruct V2 as [V2 V2']. split.
  - intros E. rewrite B4, B3, (V2 E). exact A1.
  - intros E R. destruct (V2' E R) as [k [V [G [L Sy]]]]. exists k.
    split; [|split; [|auto]].
    + rewrite <- V. apply kv_value_eq; [|congruence].
      destruct S3 as [S3 _], S4 as [S4 _]. congruence.
    + rewrite <- G. unfold get_kvs. destruct S1 as [S1 _]. rewrite S1, A1.
      destruct (s_core st); [|reflexivity]. destruct (negb (has_kvs s0)); [reflexivity|].
      destruct (s_kvs st) as [[?| |?]|]; reflexivity.
Qed.

(** * The setters keep the invariant *)

Definition fl_det (F : flags) (b : bool) : flags :=
  Fl (f_sy F) (f_mo F) (f_wr F) b (f_cac F) true true true true.
Definition fl_pre (F : flags) (det ad ac aw : bool) : flags :=
  Fl (f_sy F) (f_mo F) (f_wr F) det (f_cac F) ad ac aw false.
Definition tracked (F : flags) : Prop :=
  f_ad F = true /\ f_ac F = true /\ f_aw F = true /\ f_al F = true.

Lemma core_lengths c s : kind c s -> length (core_kvs s) = length (core_degrees s).
Proof. intros _. unfold core_kvs, core_degrees. rewrite !map_length. reflexivity. Qed.

Lemma set_degrees_inv limit c F st st' s d :
  inv c F st s -> tracked F -> (f_mo F = true -> f_cac F = false) ->
  set_degrees limit c st d = Done st' ->
  exists s', inv c (fl_det F true) st' s' /\ core_degrees s' = d /\
    sp_cps s' = sp_cps s /\ sp_weights s' = sp_weights s /\
    (f_sy F = true -> needs_kvs c = true -> core_kvs s' = core_kvs s).
Proof.
  intros H [Ta [Tc [Tw Tl]]] HM E. unfold set_degrees in E.
  assert (G := inv_kvs c F s st H).
  assert (L : needs_kvs c = true -> exists k, kv_value (snd (get_kvs st)) = Some k /\
      fst (get_kvs st) = Some k /\ lengths k = lengths (core_kvs s) /\ (f_sy F = true -> k = core_kvs s))
    by (intros R; apply (kvs_gathered c F); assumption).
  destruct (get_kvs st) as [kvs st1] eqn:EK. cbn [fst snd] in *.
  destruct (match kvs with Some k => negb (length k =? length d) | None => false end) eqn:C;
    [discriminate|].
  set (st2 := St (s_core st1) (Some d) (s_kvs st1) (s_cps st1) (s_ws st1) (s_mi st1) (s_view st1)
                 (s_fresh st1)) in *.
  assert (MI : f_mo F = true -> s_mi st2 = None).
  { intros M. destruct (s_mi st2) as [m|] eqn:Em; [|reflexivity].
    destruct (i_mi G M m Em) as [_ X]. rewrite (HM M) in X. discriminate. }
  assert (H2 : inv c (fl_pre F true false true true) st2 s).
  { destruct G. constructor; cbn [fl_pre f_sy f_mo f_wr f_det f_cac f_ad f_ac f_aw f_al]; unfold st2; st_crush; auto;
      try (intros; discriminate).
    intros k Hk. split; [apply (i_len0 k Hk)|reflexivity]. }
  rewrite (safe_gather limit c PDegrees st2 s (i_core H2)) in E.
  destruct (gather_spec c _ PDegrees st2 s H2) as [I2 [SR [[d' [Ed Ed']] [[p Ep] [W [_ K]]]]]];
    try discriminate.
  destruct Ed' as [Ed'|[Ed' _]]; [|discriminate]. cbn in Ed'. injection Ed' as <-.
  assert (D : needs_kvs c = true -> exists k, kv_value (gather c PDegrees st2) = Some k /\ length k = length d).
  { intros R. destruct (K ltac:(discriminate) R) as [k [V [Gk _]]]. exists k. split; [exact V|].
    destruct (L R) as [k' [_ [Ek' _]]]. subst kvs.
    assert (k = k').
    { clear - Gk EK. unfold get_kvs in *. unfold st2 in Gk. st_crush.
      destruct (s_core st) as [s0|] eqn:E0.
      - destruct (negb (has_kvs s0)) eqn:N; [discriminate|].
        destruct (s_kvs st) as [[?| |?]|] eqn:E1; injection EK as <- <-; st_crush;
          rewrite ?E0, ?N, ?E1 in Gk; cbn in Gk; congruence.
      - injection EK as Ek <-. rewrite E0 in Gk. cbn in Gk. congruence. }
    subst k'. apply negb_false_iff, Nat.eqb_eq in C. exact C. }
  assert (KV := K ltac:(discriminate)).
  destruct (new_core_py_inv limit c _ _ st' s d p I2 Ed Ep D W) as [s' [Hi [E1 [E2 [E3 E4]]]]]; auto.
  { cbn. intros M. left. destruct SR as [_ [SR _]]. rewrite SR. apply MI. exact M. }
  exists s'. split; [exact Hi|]. split; [exact E1|]. split.
  { rewrite E2. apply (i_cps I2 eq_refl). exact Ep. }
  split.
  { destruct (needs_ws c) eqn:R.
    - destruct (W eq_refl) as [w Ew]. rewrite (E4 eq_refl), Ew. apply (i_ws I2 eq_refl R). exact Ew.
    - destruct (i_kind Hi) as [_ [_ X]], (i_kind H) as [_ [_ Y]]. rewrite R in X, Y. congruence. }
  intros Sy R. destruct (KV R) as [k [V [_ [_ Eq]]]]. rewrite (E3 R) in V. injection V as ->.
  rewrite (Eq Sy). reflexivity.
Qed.

Lemma set_kvs_inv limit c F st st' s k :
  inv c F st s -> tracked F -> (f_mo F = true -> f_cac F = false) ->
  set_kvs limit c st k = Done st' ->
  exists s', inv c (fl_det F false) st' s' /\ core_degrees s' = core_degrees s /\
    sp_cps s' = sp_cps s /\ sp_weights s' = sp_weights s /\
    (needs_kvs c = true -> core_kvs s' = k).
Proof.
  intros H [Ta [Tc [Tw Tl]]] HM E. unfold set_kvs in E.
  assert (G := inv_degrees c F s st H).
  assert (RD := read_degrees c F s st Ta H).
  destruct (get_degrees st) as [degs st1] eqn:EK. cbn [fst snd] in *. subst degs.
  destruct (negb (length k =? length (core_degrees s))) eqn:C; [discriminate|].
  apply negb_false_iff, Nat.eqb_eq in C.
  set (st2 := set_kvdata st1 (Some (Own k))) in *.
  assert (MI : f_mo F = true -> s_mi st2 = None).
  { intros M. destruct (s_mi st2) as [m|] eqn:Em; [|reflexivity].
    destruct (i_mi G M m Em) as [_ X]. rewrite (HM M) in X. discriminate. }
  assert (H2 : inv c (fl_pre F false true true true) st2 s).
  { destruct G. constructor; cbn [fl_pre f_sy f_mo f_wr f_det f_cac f_ad f_ac f_aw f_al]; unfold st2; st_crush; auto;
      try (intros; discriminate). intros _. right. eauto. }
  rewrite (safe_gather limit c PKvs st2 s (i_core H2)) in E.
  destruct (gather_spec c _ PKvs st2 s H2) as [I2 [SR [[d' [Ed Ed']] [[p Ep] [W [K _]]]]]];
    try discriminate.
  specialize (K eq_refl). cbn in K.
  assert (Hd : d' = core_degrees s) by (apply (i_deg I2 eq_refl); exact Ed). subst d'.
  destruct (new_core_py_inv limit c _ _ st' s (core_degrees s) p I2 Ed Ep)
    as [s' [Hi [E1 [E2 [E3 E4]]]]]; auto.
  { intros R. exists k. split; [unfold kv_value; rewrite K; reflexivity|exact C]. }
  { cbn. intros M. left. destruct SR as [_ [SR _]]. rewrite SR. apply MI. exact M. }
  { right. exists k. exact K. }
  exists s'. split; [exact Hi|]. split; [exact E1|]. split.
  { rewrite E2. apply (i_cps I2 eq_refl). exact Ep. }
  split.
  { destruct (needs_ws c) eqn:R.
    - destruct (W eq_refl) as [w Ew]. rewrite (E4 eq_refl), Ew. apply (i_ws I2 eq_refl R). exact Ew.
    - destruct (i_kind Hi) as [_ [_ X]], (i_kind H) as [_ [_ Y]]. rewrite R in X, Y. congruence. }
  intros R. specialize (E3 R). unfold kv_value in E3. rewrite K in E3. congruence.
Qed.

(** The gathered control points (weights) are the assigned ones unless a rational
    spline has no cached weights (control points). *)
Lemma prepare_val_cps st : (s_ws st <> None \/ forall s, s_core st = Some s -> sp_weights s = None) ->
  forall p, s_cps st = Some p -> exists p', s_cps (prepare st) = Some p' /\ a_val p' = a_val p.
Proof.
  intros H p E. unfold prepare. destruct (s_core st) as [s|] eqn:Ec; [|eauto].
  destruct (sp_weights s) eqn:Ew.
  - destruct H as [H|H]; [|rewrite (H s eq_refl) in Ew; discriminate].
    rewrite E. destruct (s_ws st); [|easy]. cbn. eauto.
  - rewrite E. cbn. eauto.
Qed.
Lemma prepare_val_ws st : s_cps st <> None ->
  forall w, s_ws st = Some w -> exists w', s_ws (prepare st) = Some w' /\ a_val w' = a_val w.
Proof.
  intros H w E. unfold prepare. destruct (s_core st) as [s|] eqn:Ec; [|eauto].
  destruct (sp_weights s) eqn:Ew.
  - rewrite E. destruct (s_cps st); [|easy]. cbn. eauto.
  - cbn. eauto.
Qed.

Lemma uncouple_val {A} n (a : arr A) : a_val (uncouple n a) = a_val a.
Proof. unfold uncouple. destruct (a_psa a); reflexivity. Qed.
Lemma uncouple_psa {A} n (a : arr A) : a_psa (uncouple n a) = false.
Proof. unfold uncouple. destruct (a_psa a) eqn:E; [reflexivity|exact E]. Qed.
Lemma uncouple_rw {A} n (a : arr A) : a_rw a = true -> a_rw (uncouple n a) = true.
Proof. unfold uncouple. destruct (a_psa a); auto. Qed.

Lemma set_cps_inv limit c F st st' s q :
  inv c F st s -> tracked F -> set_cps limit c st q = Done st' ->
  exists s', inv c (fl_det F true) st' s' /\ core_degrees s' = core_degrees s /\
    (needs_ws c = false \/ s_ws st <> None -> sp_cps s' = q /\ sp_weights s' = sp_weights s) /\
    (f_sy F = true -> needs_kvs c = true -> core_kvs s' = core_kvs s).
Proof.
  intros H [Ta [Tc [Tw Tl]]] E. unfold set_cps in E.
  destruct (match s_ws st with Some w => negb (length (a_val w) =? length q) | None => false end);
    [discriminate|].
  destruct (negb (rect q)); [discriminate|].
  set (st2 := St (s_core st) (s_deg st) (s_kvs st) (Some (Arr false true (S (s_fresh st)) q))
                 (option_map (uncouple (s_fresh st)) (s_ws st)) (s_mi st) (s_view st)
                 (S (S (s_fresh st)))) in *.
  assert (H2 : inv c (fl_pre F true true false true) st2 s).
  { destruct H. constructor; cbn [fl_pre f_sy f_mo f_wr f_det f_cac f_ad f_ac f_aw f_al]; unfold st2; st_crush; auto;
      try (intros; discriminate).
    - intros _ R a Ea. destruct (s_ws st) as [w|] eqn:Ew; [|discriminate]. injection Ea as <-.
      rewrite uncouple_val. apply (i_ws0 Tw R). reflexivity.
    - intros k Hk. split; [apply (i_len0 k Hk)|reflexivity].
    - intros Wr. destruct (i_rw0 Wr) as [R1 R2]. split; [intros a [= <-]; reflexivity|].
      intros R. destruct (R2 R) as [R3 R4]. split.
      + destruct (s_ws st); cbn; [rewrite uncouple_psa|]; reflexivity.
      + intros a Ea. destruct (s_ws st) as [w|]; [|discriminate]. injection Ea as <-.
        apply uncouple_rw, R4. reflexivity. }
  rewrite (safe_gather limit c PCps st2 s (i_core H2)) in E.
  destruct (gather_spec c _ PCps st2 s H2) as [I2 [SR [[d' [Ed Ed']] [[p Ep] [W [_ K]]]]]];
    try discriminate.
  assert (Hd : d' = core_degrees s) by (apply (i_deg I2 eq_refl); exact Ed). subst d'.
  specialize (K ltac:(discriminate)).
  destruct (new_core_py_inv limit c _ _ st' s (core_degrees s) p I2 Ed Ep)
    as [s' [Hi [E1 [E2 [E3 E4]]]]]; auto.
  { intros R. destruct (K R) as [k [V [_ [L _]]]]. exists k. split; [exact V|].
    rewrite (lengths_length _ _ L). apply (core_lengths c), (i_kind H). }
  { cbn. intros M. right. split; [reflexivity|]. intros R.
    destruct (K R) as [k [V [_ [L _]]]]. exists k. auto. }
  exists s'. split; [exact Hi|]. split; [exact E1|]. split.
  - intros HW. split.
    + rewrite E2. clear - HW Ep H. unfold gather in Ep.
      set (st3 := snd (get_degrees st2)) in Ep.
      destruct (degrees_keeps st2) as [[A0 _] [A [B C]]]. fold st3 in A0, A, B, C. clearbody st3.
      set (st4 := if needs_kvs c then snd (get_kvs st3) else st3) in Ep.
      assert (X : s_core st4 = s_core st3 /\ s_cps st4 = s_cps st3 /\ s_ws st4 = s_ws st3).
      { unfold st4. destruct (needs_kvs c); [|auto].
        destruct (kvs_keeps st3) as [[? _] [? [? ?]]]. auto. }
      clearbody st4. destruct X as [X0 [X1 X2]].
      rewrite B in X1. rewrite C in X2. rewrite A0 in X0. unfold st2 in *. st_crush.
      destruct (needs_ws c) eqn:R.
      * destruct HW as [HW|HW]; [discriminate|]. unfold get_ws in Ep. cbn [snd] in Ep.
        destruct (is_psa (s_ws st4)); [rewrite X1 in Ep; injection Ep as <-; reflexivity|].
        edestruct (prepare_val_cps st4) as [p' [Ep' Ev]]; [|exact X1|].
        -- left. rewrite X2. destruct (s_ws st); [discriminate|easy].
        -- rewrite Ep' in Ep. injection Ep as <-. exact Ev.
      * rewrite X1 in Ep. injection Ep as <-. reflexivity.
    + destruct (needs_ws c) eqn:R.
      * destruct (W eq_refl) as [w Ew]. rewrite (E4 eq_refl), Ew. apply (i_ws I2 eq_refl R). exact Ew.
      * destruct (i_kind Hi) as [_ [_ X]], (i_kind H) as [_ [_ Y]]. rewrite R in X, Y. congruence.
  - intros Sy R. destruct (K R) as [k [V [_ [_ Eq]]]]. rewrite (E3 R) in V. injection V as ->.
    rewrite (Eq Sy). reflexivity.
Qed.

Lemma set_ws_inv limit c F st st' s q :
  inv c F st s -> tracked F -> set_ws limit c st q = Done st' ->
  exists s', inv c (fl_det F true) st' s' /\ core_degrees s' = core_degrees s /\
    (s_cps st <> None -> sp_cps s' = sp_cps s /\
       (needs_ws c = true -> sp_weights s' = Some q)) /\
    (f_sy F = true -> needs_kvs c = true -> core_kvs s' = core_kvs s).
Proof.
  intros H [Ta [Tc [Tw Tl]]] E. unfold set_ws in E.
  destruct (match s_cps st with Some w => negb (length (a_val w) =? length q) | None => false end);
    [discriminate|].
  set (st2 := St (s_core st) (s_deg st) (s_kvs st)
                 (option_map (uncouple (s_fresh st)) (s_cps st))
                 (Some (Arr false true (S (s_fresh st)) q)) (s_mi st) (s_view st)
                 (S (S (s_fresh st)))) in *.
  assert (H2 : inv c (fl_pre F true true true false) st2 s).
  { destruct H. constructor; cbn [fl_pre f_sy f_mo f_wr f_det f_cac f_ad f_ac f_aw f_al]; unfold st2; st_crush; auto;
      try (intros; discriminate).
    - intros _ a Ea. destruct (s_cps st) as [w|] eqn:Ew; [|discriminate]. injection Ea as <-.
      rewrite uncouple_val. apply (i_cps0 Tc). reflexivity.
    - intros k Hk. split; [apply (i_len0 k Hk)|reflexivity].
    - intros Wr. destruct (i_rw0 Wr) as [R1 R2]. split.
      + intros a Ea. destruct (s_cps st) as [w|]; [|discriminate]. injection Ea as <-.
        apply uncouple_rw, R1. reflexivity.
      + intros R. split; [|intros a [= <-]; reflexivity].
        destruct (s_cps st); cbn; [rewrite uncouple_psa|]; reflexivity. }
  rewrite (safe_gather limit c PWs st2 s (i_core H2)) in E.
  destruct (gather_spec c _ PWs st2 s H2) as [I2 [SR [[d' [Ed Ed']] [[p Ep] [W [_ K]]]]]];
    try discriminate.
  assert (Hd : d' = core_degrees s) by (apply (i_deg I2 eq_refl); exact Ed). subst d'.
  specialize (K ltac:(discriminate)).
  destruct (new_core_py_inv limit c _ _ st' s (core_degrees s) p I2 Ed Ep)
    as [s' [Hi [E1 [E2 [E3 E4]]]]]; auto.
  { intros R. destruct (K R) as [k [V [_ [L _]]]]. exists k. split; [exact V|].
    rewrite (lengths_length _ _ L). apply (core_lengths c), (i_kind H). }
  { cbn. intros M. right. split; [reflexivity|]. intros R.
    destruct (K R) as [k [V [_ [L _]]]]. exists k. auto. }
  exists s'. split; [exact Hi|]. split; [exact E1|]. split.
  - intros HC. split; [rewrite E2; apply (i_cps I2 eq_refl); exact Ep|].
    intros R. rewrite (E4 R). destruct (W R) as [w Ew]. rewrite Ew. cbn. f_equal.
    clear - HC Ew R. unfold gather in Ew. rewrite R in Ew.
    set (st3 := snd (get_degrees st2)) in Ew.
    destruct (degrees_keeps st2) as [[A0 _] [A [B C]]]. fold st3 in A0, A, B, C. clearbody st3.
    set (st4 := if needs_kvs c then snd (get_kvs st3) else st3) in Ew.
    assert (X : s_core st4 = s_core st3 /\ s_cps st4 = s_cps st3 /\ s_ws st4 = s_ws st3).
    { unfold st4. destruct (needs_kvs c); [|auto].
      destruct (kvs_keeps st3) as [[? _] [? [? ?]]]. auto. }
    clearbody st4. destruct X as [X0 [X1 X2]].
    rewrite B in X1. rewrite C in X2. rewrite A0 in X0. unfold st2 in *. st_crush.
    unfold get_cps in Ew. cbn [snd] in Ew.
    destruct (is_psa (s_cps st4)); [rewrite X2 in Ew; injection Ew as <-; reflexivity|].
    edestruct (prepare_val_ws st4) as [p' [Ep' Ev]]; [|exact X2|].
    + rewrite X1. destruct (s_cps st); [discriminate|easy].
    + rewrite Ep' in Ew. injection Ew as <-. exact Ev.
  - intros Sy R. destruct (K R) as [k [V [_ [_ Eq]]]]. rewrite (E3 R) in V. injection V as ->.
    rewrite (Eq Sy). reflexivity.
Qed.

(** * Sequences of operations *)

Lemma knots_with_kvs axes k : Forall is_knot axes -> length k = length axes ->
  map ax_kv (map (fun ak => ax_with_kv (fst ak) (snd ak)) (combine axes k)) = k /\
  map ax_degree (map (fun ak => ax_with_kv (fst ak) (snd ak)) (combine axes k)) = map ax_degree axes /\
  Forall is_knot (map (fun ak => ax_with_kv (fst ak) (snd ak)) (combine axes k)).
Proof.
  intros F. revert k. induction F as [|a axes [p [kv ->]] F IH]; intros k L.
  - destruct k; [|discriminate]. cbn. auto.
  - destruct k as [|x k]; [discriminate|]. destruct (IH k) as [A [B C]]; [cbn in L; lia|].
    cbn [combine map fst snd ax_with_kv ax_kv ax_degree]. rewrite A, B.
    split; [reflexivity|split; [reflexivity|]]. constructor; [exists p, x; reflexivity|exact C].
Qed.

Lemma with_kvs_spec c s k : kind c s -> needs_kvs c = true -> lengths k = lengths (core_kvs s) ->
  kind c (with_kvs s k) /\ core_kvs (with_kvs s k) = k /\
  core_degrees (with_kvs s k) = core_degrees s /\ sp_res (with_kvs s k) = sp_res s.
Proof.
  intros K R L. assert (L' := lengths_length _ _ L). unfold core_kvs in L'. rewrite map_length in L'.
  assert (K0 := K). destruct K0 as [K1 [K2 K3]]. rewrite R in K2.
  destruct (knots_with_kvs (sp_axes s) k K2 L') as [A [B C]].
  assert (K' : kind c (with_kvs s k)).
  { split; [|split; [rewrite R; exact C|exact K3]].
    intros E. apply (f_equal (map ax_degree)) in E. unfold with_kvs in E. cbn [sp_axes] in E.
    rewrite B in E. destruct (sp_axes s); [easy|discriminate]. }
  assert (D : core_degrees (with_kvs s k) = core_degrees s).
  { unfold core_degrees, with_kvs. cbn [sp_axes].
    rewrite <- (map_map ax_degree Z.of_nat), B, map_map. reflexivity. }
  split; [exact K'|]. split; [exact A|]. split; [exact D|].
  rewrite (res_of_kind c _ K'), (res_of_kind c s K), D.
  unfold core_kvs at 1, with_kvs. cbn [sp_axes]. rewrite A, L. reflexivity.
Qed.

Lemma with_cps_kind c s p : kind c s -> kind c (with_cps s p).
Proof. intros [A [B C]]. split; [exact A|split; [exact B|exact C]]. Qed.
Lemma with_ws_kind c s w : kind c s -> kind c (with_ws s w).
Proof.
  intros [A [B C]]. split; [exact A|split; [exact B|]]. unfold with_ws. cbn [sp_weights].
  destruct (needs_ws c); [destruct C as [x ->]; eauto|rewrite C; reflexivity].
Qed.

Lemma keeps_kind_kind c f s : keeps_kind f -> kind c s -> kind c (f s).
Proof.
  intros H [A [B C]]. destruct (H s) as [H1 [H2 [H3 H4]]].
  split; [auto|]. split.
  - destruct (needs_kvs c); [apply H4|apply H3]; exact B.
  - destruct (needs_ws c).
    + destruct C as [w C]. destruct (sp_weights (f s)) eqn:E; [eauto|].
      rewrite (proj1 H1 eq_refl) in C. discriminate.
    + apply H1. exact C.
Qed.

(** Flags after one operation. *)
Definition fl_next (F : flags) (o : op) : flags :=
  match o with
  | SetDegrees _ | SetCps _ | SetWs _ => fl_det F true
  | SetKvs _ => fl_det F false
  | Mutate _ => Fl (f_sy F) (f_mo F) (f_wr F) false false true true true true
  | ReadMi => cached F
  | _ => F
  end.

Lemma tracked_next F o : tracked F -> tracked (fl_next F o).
Proof. intros T. destruct o; cbn; auto; unfold tracked; cbn; auto. Qed.

Lemma step_inv limit c F st st' s o :
  inv c F st s -> tracked F -> sensible o ->
  (f_sy F = true -> forall f, o = EditKvs f -> f_det F = false) ->
  (f_mo F = true -> (exists d, o = SetDegrees d) \/ (exists k, o = SetKvs k) -> f_cac F = false) ->
  (f_wr F = true -> needs_ws c = true \/ ~ touches_ws o) ->
  step limit c st o = Done st' ->
  exists s', inv c (fl_next F o) st' s'.
Proof.
  intros H T SO Hs Hm Hw E.
  destruct o as [d|k|p|w|f|f|f|f| | | | |]; cbn [step fl_next] in *.
  - destruct (set_degrees_inv limit c F st st' s d H T) as [s' [X _]]; eauto.
  - destruct (set_kvs_inv limit c F st st' s k H T) as [s' [X _]]; eauto.
  - destruct (set_cps_inv limit c F st st' s p H T E) as [s' [X _]]; eauto.
  - destruct (set_ws_inv limit c F st st' s w H T E) as [s' [X _]]; eauto.
  - rewrite (i_core H) in E. injection E as <-. exists (f s).
    constructor; st_crush; try (intros; discriminate); auto.
    + apply keeps_kind_kind; [exact SO|apply (i_kind H)].
    + intros _. exact I.
    + intros _. split; [intros; discriminate|]. intros _. split; [reflexivity|intros; discriminate].
  - assert (G := inv_get_cps c F s st H).
    destruct (get_cps st) as [v st1]. cbn [snd] in G.
    rewrite (i_core G) in E. destruct (s_cps st1) as [a|] eqn:Ea; [|discriminate].
    destruct (a_rw a) eqn:Rw; [|discriminate]. injection E as <-.
    exists (with_cps s (f (a_val a))). destruct G as [Gc Gk Gd Gp Gw Gl Gb Gs Gm Ga Gv Gr].
    constructor; st_crush; auto;
      try first [exact Gd|exact Gp|exact Gw|exact Gl|exact Gs|exact Gm].
    + intros _ b [= <-]. reflexivity.
    + intros Al. specialize (Ga Al). unfold alive in *. st_crush. destruct (s_view st1); [|exact I].
      destruct Ga as [b [E1 E2]]. rewrite Ea in E1. injection E1 as <-.
      eexists. split; [reflexivity|exact E2].
    + intros Wr. destruct (Gr Wr) as [R1 R2]. split; [intros b [= <-]; reflexivity|].
      intros R. destruct (R2 R) as [R3 R4]. split; [|exact R4].
      rewrite <- R3, Ea. reflexivity.
  - assert (Wok : needs_ws c = true \/ f_wr F = false).
    { destruct (f_wr F) eqn:Wr; [|auto]. destruct (Hw eq_refl) as [?|N]; [auto|].
      exfalso. apply N. right. eauto. }
    assert (G := inv_get_ws c F s st Wok H).
    destruct (get_ws st) as [v st1]. cbn [snd] in G.
    rewrite (i_core G) in E. destruct (s_ws st1) as [a|] eqn:Ea; [|discriminate].
    destruct (a_rw a) eqn:Rw; [|discriminate]. injection E as <-.
    exists (with_ws s (f (a_val a))). destruct G as [Gc Gk Gd Gp Gw Gl Gb Gs Gm Ga Gv Gr].
    constructor; st_crush; auto;
      try first [exact Gd|exact Gp|exact Gw|exact Gl|exact Gs|exact Gm].
    + apply with_ws_kind. exact Gk.
    + intros _ R b [= <-]. unfold with_ws. cbn [sp_weights a_val].
      destruct Gk as [_ [_ K]]. rewrite R in K. destruct K as [w ->]. reflexivity.
    + intros Wr. destruct (Gr Wr) as [R1 R2]. split; [exact R1|].
      intros R. destruct (R2 R) as [R3 R4]. split; [|intros b [= <-]; reflexivity].
      rewrite R3, Ea. reflexivity.
  - assert (G := inv_kvs c F s st H).
    destruct (get_kvs st) as [v st1]. cbn [snd] in G.
    assert (EC := i_core G). rewrite EC in E.
    destruct (s_kvs st1) as [[k| |k]|] eqn:Ek; try discriminate; injection E as <-.
    + assert (R : needs_kvs c = true).
      { destruct (needs_kvs c) eqn:R; [reflexivity|]. destruct (i_bez G R) as [Z|[? Z]]; congruence. }
      destruct (with_kvs_spec c s (f (core_kvs s)) (i_kind G) R) as [A [B [C D]]]; [apply SO|].
      exists (with_kvs s (f (core_kvs s))).
      destruct G as [Gc Gk Gd Gp Gw Gl Gb Gs Gm Ga Gv Gr].
      constructor; st_crush; auto; try (intros; discriminate); rewrite ?C, ?D; auto.
      intros R'. congruence.
    + exists s. destruct (i_len G k Ek) as [L D].
      destruct G as [Gc Gk Gd Gp Gw Gl Gb Gs Gm Ga Gv Gr].
      constructor; st_crush; auto.
      * intros k' [= <-]. split; [|exact D]. rewrite <- L. apply SO.
      * intros R. destruct (Gb R) as [Z|[? Z]]; congruence.
      * intros Sy k' [= <-]. rewrite (Hs Sy f eq_refl) in D. discriminate.
  - injection E as <-. exists s. apply inv_degrees. exact H.
  - injection E as <-. exists s. apply inv_kvs. exact H.
  - injection E as <-. exists s. apply inv_get_cps. exact H.
  - injection E as <-. exists s. apply inv_get_ws; [|exact H].
    destruct (f_wr F) eqn:Wr; [|auto]. destruct (Hw eq_refl) as [?|N]; [auto|].
    exfalso. apply N. left. reflexivity.
  - injection E as <-. exists s. apply inv_mi. exact H.
Qed.

Lemma run_inv limit c : forall ops F st st' s,
  inv c F st s -> tracked F -> Forall sensible ops ->
  (f_sy F = true -> attached_edits (f_det F) ops) ->
  (f_mo F = true -> index_kept (f_cac F) ops) ->
  (f_wr F = true -> needs_ws c = true \/ Forall (fun o => ~ touches_ws o) ops) ->
  run limit c st ops = Some st' ->
  exists s' F', inv c F' st' s' /\ tracked F' /\ f_sy F' = f_sy F /\ f_mo F' = f_mo F /\ f_wr F' = f_wr F.
Proof.
  induction ops as [|o ops IH]; intros F st st' s H T SO Hs Hm Hw E.
  - injection E as <-. exists s, F. auto.
  - cbn [run] in E. destruct (step limit c st o) as [st1|] eqn:E1; [|discriminate].
    inversion SO as [|? ? S1 S2]; subst.
    destruct (step_inv limit c F st st1 s o H T S1) as [s1 H1]; auto.
    + intros Sy f ->. apply (Hs Sy).
    + intros M [[d ->]|[k ->]]; apply (Hm M).
    + intros Wr. destruct (Hw Wr) as [?|N]; [auto|]. inversion N; auto.
    + destruct (IH (fl_next F o) st1 st' s1 H1 (tracked_next F o T) S2) as [s' [F' [A [B [C [D G]]]]]]; auto.
      * intros Sy. assert (Sy' : f_sy F = true) by (destruct o; exact Sy). specialize (Hs Sy').
        destruct o; cbn in *; try exact Hs. apply Hs.
      * intros M. assert (M' : f_mo F = true) by (destruct o; exact M). specialize (Hm M').
        destruct o; cbn in *; try exact Hm; try apply Hm.
      * intros Wr. assert (Wr' : f_wr F = true) by (destruct o; exact Wr).
        destruct (Hw Wr') as [?|N]; [auto|]. inversion N; auto.
      * exists s', F'. destruct o; cbn in *; auto.
Qed.

(** * The state after construction *)

Lemma construct_inv limit c i degs kvs cps ws st s sy mo wr :
  complete c i degs kvs cps ws -> construct limit c i = Done st -> s_core st = Some s ->
  inv c (Fl sy mo wr false false true true true true) st s.
Proof.
  intros Hc E Es. destruct (construct_eq limit c i degs kvs cps ws Hc) as [[st' [E' _]]|
    [Hsz [Hr [p [w [Ep [Ew [Pp [Pr [Pw M]]]]]]]]]]; [congruence|].
  destruct (new_core limit degs kvs cps ws) as [s0|] eqn:N.
  2:{ destruct M as [st' M]. congruence. }
  destruct M as [fr [vw [M Ev]]]. rewrite M in E. injection E as <-. cbn in Es. injection Es as ->.
  apply new_core_some in N; [|exact Hsz]. destruct N as [N Hn].
  destruct (properties_kind c s degs kvs cps ws Hn N) as [K [K1 [K2 [K3 K4]]]].
  { destruct Hc as [_ [_ Hc]]. destruct c; cbn; intuition congruence. }
  { destruct Hc as [_ [_ Hc]]. destruct c; cbn; intuition congruence. }
  constructor; st_crush; auto; cbn [f_sy f_mo f_wr f_det f_cac f_ad f_ac f_aw f_al].
  - intros _ d [= <-]. auto.
  - intros _ a [= <-]. congruence.
  - intros _ _ a Ea. rewrite K3, <- Ew, Ea. reflexivity.
  - intros k Ek. destruct kvs; discriminate.
  - intros _. destruct kvs as [k|]; [right; exists k|left]; reflexivity.
  - intros _ k Ek. destruct kvs; discriminate.
  - intros; discriminate.
  - intros _. unfold alive. st_crush. rewrite Ev. destruct c; try exact I. eauto.
  - intros R. rewrite Ev. destruct c; try discriminate; reflexivity.
  - intros _. split; [intros a [= <-]; exact Pr|]. intros R. split.
    + cbn. rewrite Pp. destruct w as [w|]; [|reflexivity]. cbn. symmetry. apply (Pw w eq_refl).
    + intros a Ea. apply (Pw a Ea).
Qed.

(** * Consequences for splines built by the constructor *)

Lemma reached_inv limit c ops st sy mo wr : reached limit c ops st ->
  (sy = true -> attached_edits false ops) -> (mo = true -> index_kept false ops) ->
  (wr = true -> needs_ws c = true \/ Forall (fun o => ~ touches_ws o) ops) ->
  exists s F, inv c F st s /\ tracked F /\ f_sy F = sy /\ f_mo F = mo /\ f_wr F = wr.
Proof.
  intros [i [degs [kvs [cps [ws [st0 [s0 [Hc [E [Es [SO R]]]]]]]]]]] A B C.
  assert (H := construct_inv limit c i degs kvs cps ws st0 s0 sy mo wr Hc E Es).
  eapply (run_inv limit c ops _ st0 st s0 H); eauto; unfold tracked; auto.
Qed.

Lemma reached_reads limit c ops st : reached limit c ops st ->
  exists s, s_core st = Some s /\ degrees_agree st s /\ cps_agree st s /\
    (needs_ws c = true -> weights_agree st s) /\ alive st.
Proof.
  intros R. destruct (reached_inv limit c ops st false false false R) as [s [F [H [[T1 [T2 [T3 T4]]] _]]]];
    try discriminate.
  exists s. split; [apply (i_core H)|]. split; [apply (read_degrees c F s st T1 H)|].
  split; [apply (read_cps c F s st T2 H)|]. split; [|apply (i_alive H T4)].
  intros W. apply (read_ws c F s st T3 W H).
Qed.

Lemma reached_knots limit c ops st : reached limit c ops st -> needs_kvs c = true ->
  attached_edits false ops -> exists s, s_core st = Some s /\ knots_agree st s.
Proof.
  intros R W A. destruct (reached_inv limit c ops st true false false R) as [s [F [H [_ [Sy _]]]]];
    auto; try discriminate.
  exists s. split; [apply (i_core H)|]. exists (core_kvs s).
  split; [apply (read_kvs c F s st W Sy H)|]. apply knot_axes_kvs. split; [|reflexivity].
  destruct (i_kind H) as [_ [K _]]. rewrite W in K. exact K.
Qed.

Lemma reached_index limit c ops st : reached limit c ops st ->
  index_kept false ops -> exists s, s_core st = Some s /\ index_agrees st s.
Proof.
  intros R A. destruct (reached_inv limit c ops st false true false R) as [s [F [H [_ [_ [M _]]]]]];
    auto; try discriminate.
  exists s. split; [apply (i_core H)|]. apply (read_mi c F s st M H).
Qed.

(** In-place edits of control points never fail and reach the core. *)
Lemma reached_edit limit c ops st f : reached limit c ops st ->
  needs_ws c = true \/ Forall (fun o => ~ touches_ws o) ops ->
  exists s st', s_core st = Some s /\ step limit c st (EditCps f) = Done st' /\
    s_core st' = Some (with_cps s (f (sp_cps s))).
Proof.
  intros R W. destruct (reached_inv limit c ops st false false true R) as
    [s [F [H [[_ [T _]] [_ [_ Wr]]]]]]; auto; try discriminate.
  exists s. assert (G := inv_get_cps c F s st H).
  destruct (cps_present c F s st H) as [a Ea].
  cbn [step]. destruct (get_cps st) as [v st1]. cbn [snd] in *.
  rewrite (i_core G), Ea. destruct (i_rw G Wr) as [R1 _]. rewrite (R1 a Ea).
  eexists. split; [apply (i_core H)|]. split; [reflexivity|]. cbn.
  rewrite (i_cps G T a Ea). reflexivity.
Qed.

(** * Successful assignments take effect *)

Lemma reached_assign_degrees limit c ops st d st' : reached limit c ops st ->
  step limit c st (SetDegrees d) = Done st' ->
  exists s s', s_core st = Some s /\ s_core st' = Some s' /\
    map (fun a => Z.of_nat (ax_degree a)) (sp_axes s') = d /\
    sp_cps s' = sp_cps s /\ sp_weights s' = sp_weights s.
Proof.
  intros R E. destruct (reached_inv limit c ops st false false false R) as [s [F [H [T [_ [M _]]]]]];
    try discriminate.
  destruct (set_degrees_inv limit c F st st' s d H T) as [s' [H' [A [B [C _]]]]]; auto; try congruence.
  exists s, s'. split; [apply (i_core H)|]. split; [apply (i_core H')|]. auto.
Qed.

Lemma reached_assign_kvs limit c ops st k st' : reached limit c ops st -> needs_kvs c = true ->
  step limit c st (SetKvs k) = Done st' ->
  exists s s', s_core st = Some s /\ s_core st' = Some s' /\
    Forall2 (fun a kv => exists p, a = KnotAxis p kv) (sp_axes s') k /\
    map ax_degree (sp_axes s') = map ax_degree (sp_axes s) /\
    sp_cps s' = sp_cps s /\ sp_weights s' = sp_weights s.
Proof.
  intros R W E. destruct (reached_inv limit c ops st false false false R) as [s [F [H [T [_ [M _]]]]]];
    try discriminate.
  destruct (set_kvs_inv limit c F st st' s k H T) as [s' [H' [A [B [C D]]]]]; auto; try congruence.
  exists s, s'. split; [apply (i_core H)|]. split; [apply (i_core H')|]. split.
  - apply knot_axes_kvs. split; [|apply (D W)]. destruct (i_kind H') as [_ [K _]]. rewrite W in K. exact K.
  - split; [|auto]. unfold core_degrees in A.
    rewrite <- (map_map ax_degree Z.of_nat), <- (map_map ax_degree Z.of_nat) in A.
    revert A. generalize (map ax_degree (sp_axes s')) (map ax_degree (sp_axes s)).
    induction l as [|x l IH]; intros [|y l'] A; try discriminate; [reflexivity|].
    cbn in A. injection A as A1 A2. f_equal; [lia|auto].
Qed.

Lemma reached_assign_cps limit c ops st q st' : reached limit c ops st ->
  needs_ws c = false \/ s_ws st <> None ->
  step limit c st (SetCps q) = Done st' ->
  exists s s', s_core st = Some s /\ s_core st' = Some s' /\ sp_cps s' = q /\
    sp_weights s' = sp_weights s.
Proof.
  intros R W E. destruct (reached_inv limit c ops st false false false R) as [s [F [H [T _]]]];
    try discriminate.
  destruct (set_cps_inv limit c F st st' s q H T E) as [s' [H' [A [B _]]]].
  exists s, s'. split; [apply (i_core H)|]. split; [apply (i_core H')|]. apply (B W).
Qed.

Lemma reached_assign_ws limit c ops st q st' : reached limit c ops st ->
  needs_ws c = true -> s_cps st <> None ->
  step limit c st (SetWs q) = Done st' ->
  exists s s', s_core st = Some s /\ s_core st' = Some s' /\ sp_weights s' = Some q /\
    sp_cps s' = sp_cps s.
Proof.
  intros R W N E. destruct (reached_inv limit c ops st false false false R) as [s [F [H [T _]]]];
    try discriminate.
  destruct (set_ws_inv limit c F st st' s q H T E) as [s' [H' [A [B _]]]].
  exists s, s'. split; [apply (i_core H)|]. split; [apply (i_core H')|].
  destruct (B N) as [B1 B2]. auto.
Qed.

(** * Rejected assignments *)

Lemma new_core_py_raised limit c st st' : new_core_py limit c st = Raised st' ->
  s_core st' = s_core st /\ exists p, s_cps st = Some p /\
  st' = St (s_core st) (s_deg st) (s_kvs st) (Some (plain p)) (s_ws st) (s_mi st) (s_view st) (s_fresh st).
Proof.
  unfold new_core_py. destruct (s_deg st); [|discriminate]. destruct (s_cps st) as [p|]; [|discriminate].
  destruct (_ || _); [discriminate|]. destruct (new_core _ _ _ _ _); [discriminate|].
  intros [= <-]. cbn. split; [reflexivity|]. exists p. auto.
Qed.

Lemma gather_core c ex st : s_core (gather c ex st) = s_core st.
Proof.
  unfold gather.
  set (st1 := match ex with PDegrees => st | _ => snd (get_degrees st) end).
  assert (E1 : s_core st1 = s_core st) by (unfold st1; destruct ex; try apply degrees_keeps; reflexivity).
  clearbody st1.
  set (st2 := if needs_kvs c then match ex with PKvs => st1 | _ => snd (get_kvs st1) end else st1).
  assert (E2 : s_core st2 = s_core st1)
    by (unfold st2; destruct (needs_kvs c), ex; try apply kvs_keeps; reflexivity).
  clearbody st2.
  set (st3 := match ex with PCps => st2 | _ => snd (get_cps st2) end).
  assert (E3 : s_core st3 = s_core st2) by (unfold st3; destruct ex; try apply cps_keeps; reflexivity).
  clearbody st3.
  assert (E4 : s_core (if needs_ws c then match ex with PWs => st3 | _ => snd (get_ws st3) end else st3)
               = s_core st3) by (destruct (needs_ws c), ex; try apply ws_keeps; reflexivity).
  congruence.
Qed.

Lemma safe_raised_core limit c ex st st' :
  safe_new_core limit c ex st = Raised st' -> s_core st' = s_core st.
Proof.
  intros E. destruct (s_core st) as [s|] eqn:Es.
  - rewrite (safe_gather limit c ex st s Es) in E.
    apply new_core_py_raised in E. destruct E as [E _]. rewrite E, gather_core. exact Es.
  - unfold safe_new_core in E. rewrite Es in E. apply new_core_py_raised in E.
    destruct E as [E _]. congruence.
Qed.

Lemma raised_core limit c st o st' : is_setter o -> step limit c st o = Raised st' ->
  s_core st' = s_core st.
Proof.
  intros S0 E. destruct o; try easy; cbn [step] in E.
  - unfold set_degrees in E. assert (K := kvs_keeps st). destruct (get_kvs st) as [k st1]. cbn [snd] in K.
    destruct K as [[K _] _].
    destruct (match k with Some k => _ | None => _ end); [injection E as <-; exact K|].
    apply safe_raised_core in E. rewrite E. exact K.
  - unfold set_kvs in E. assert (K := degrees_keeps st). destruct (get_degrees st) as [d st1]. cbn [snd] in K.
    destruct K as [[K _] _].
    destruct (match d with Some k => _ | None => _ end); [injection E as <-; exact K|].
    apply safe_raised_core in E. rewrite E. exact K.
  - unfold set_cps in E. destruct (match s_ws st with Some k => _ | None => _ end); [injection E as <-; reflexivity|].
    destruct (negb (rect p)); [injection E as <-; reflexivity|].
    apply safe_raised_core in E. rewrite E. reflexivity.
  - unfold set_ws in E. destruct (match s_cps st with Some k => _ | None => _ end); [injection E as <-; reflexivity|].
    apply safe_raised_core in E. rewrite E. reflexivity.
Qed.

(** Weights of a non-rational spline: whatever is stored. *)
Lemma read_ws_plain c F st s : needs_ws c = false -> inv c F st s ->
  fst (get_ws st) = option_map a_val (s_ws st).
Proof.
  intros R H. unfold get_ws. cbn [fst]. destruct (is_psa (s_ws st)); [reflexivity|].
  unfold prepare. rewrite (i_core H). destruct (i_kind H) as [_ [_ K]]. rewrite R in K. rewrite K. reflexivity.
Qed.

Lemma read_kvs_none c F st s : needs_kvs c = false -> inv c F st s -> fst (get_kvs st) = None.
Proof.
  intros R H. unfold get_kvs. rewrite (i_core H), (kind_has_kvs c s (i_kind H)), R. reflexivity.
Qed.

Lemma reads_from_inv c F F' st st' s :
  inv c F st s -> inv c F' st' s -> tracked F -> tracked F' ->
  f_sy F = true -> f_sy F' = true -> f_mo F = true -> f_mo F' = true ->
  (needs_ws c = false -> s_ws st' = s_ws st) -> reads st' = reads st.
Proof.
  intros H H' [T1 [T2 [T3 _]]] [T1' [T2' [T3' _]]] Sy Sy' M M' HW. unfold reads.
  rewrite (read_degrees c F s st T1 H), (read_degrees c F' s st' T1' H').
  rewrite (read_cps c F s st T2 H), (read_cps c F' s st' T2' H').
  rewrite (read_mi c F s st M H), (read_mi c F' s st' M' H').
  replace (fst (get_ws st')) with (fst (get_ws st)).
  2:{ destruct (needs_ws c) eqn:R.
      - rewrite (read_ws c F s st T3 R H), (read_ws c F' s st' T3' R H'). reflexivity.
      - rewrite (read_ws_plain c F st s R H), (read_ws_plain c F' st' s R H'), HW; reflexivity. }
  replace (fst (get_kvs st')) with (fst (get_kvs st)); [reflexivity|].
  destruct (needs_kvs c) eqn:R.
  - rewrite (read_kvs c F s st R Sy H), (read_kvs c F' s st' R Sy' H'). reflexivity.
  - rewrite (read_kvs_none c F st s R H), (read_kvs_none c F' st' s R H'). reflexivity.
Qed.

Lemma prepare_ws_plain c F st s : needs_ws c = false -> inv c F st s -> s_ws (prepare st) = s_ws st.
Proof.
  intros R H. unfold prepare. rewrite (i_core H).
  destruct (i_kind H) as [_ [_ K]]. rewrite R in K. rewrite K. reflexivity.
Qed.

Lemma raised_kvs limit c ops st k st' : reached limit c ops st ->
  attached_edits false ops -> index_kept false ops ->
  step limit c st (SetKvs k) = Raised st' -> reads st' = reads st.
Proof.
  intros R A B E. destruct (reached_inv limit c ops st true true false R) as
    [s [F [H [T [Sy [M _]]]]]]; auto; try discriminate.
  assert (T0 := T). destruct T0 as [T1 [T2 [T3 T4]]].
  cbn [step] in E. unfold set_kvs in E.
  assert (G := inv_degrees c F s st H).
  assert (RD := read_degrees c F s st T1 H).
  assert (DK := degrees_keeps st).
  destruct (get_degrees st) as [degs st1] eqn:EK. cbn [fst snd] in *. subst degs.
  destruct DK as [_ [_ [_ DW]]].
  destruct (negb (length k =? length (core_degrees s))) eqn:C.
  { injection E as <-. apply (reads_from_inv c F F st st1 s); auto. }
  set (st2 := set_kvdata st1 (Some (Own k))) in *.
  set (F2 := Fl true true false (f_det F) (f_cac F) true true true true).
  assert (H2 : inv c F2 st2 s).
  { destruct G as [Gc Gk Gd Gp Gw Gl Gb Gs Gm Ga Gv Gr].
    constructor; cbn [F2 f_sy f_mo f_wr f_det f_cac f_ad f_ac f_aw f_al]; unfold st2; st_crush; auto;
      try (intros; discriminate).
    intros _. right. eauto. }
  rewrite (safe_gather limit c PKvs st2 s (i_core H2)) in E.
  destruct (gather_spec c _ PKvs st2 s H2) as [I2 _]; try discriminate.
  assert (WS : needs_ws c = false -> s_ws (gather c PKvs st2) = s_ws st).
  { intros W. unfold gather. rewrite W.
    set (st3 := snd (get_degrees st2)).
    assert (I3 := inv_degrees c F2 s st2 H2). fold st3 in I3.
    assert (E3 : s_ws st3 = s_ws st2) by apply degrees_keeps. clearbody st3.
    replace (if needs_kvs c then st3 else st3) with st3 by (destruct (needs_kvs c); reflexivity).
    unfold get_cps. cbn [snd]. destruct (is_psa (s_cps st3)); [rewrite E3; exact DW|].
    rewrite (prepare_ws_plain c F2 st3 s W I3), E3. exact DW. }
  apply new_core_py_raised in E. destruct E as [_ [p [Ep ->]]].
  apply (reads_from_inv c F F2 st _ s); auto; [|unfold tracked; cbn; auto].
  destruct I2 as [Gc Gk Gd Gp Gw Gl Gb Gs Gm Ga Gv Gr].
  constructor; st_crush; auto; try (intros; discriminate).
  - intros Fa a [= <-]. exact (Gp Fa p Ep).
  - intros Fa. specialize (Ga Fa). unfold alive in *. st_crush.
    destruct (s_view (gather c PKvs st2)); [|exact I]. destruct Ga as [a [E1 E2]].
    rewrite Ep in E1. injection E1 as <-. exists (plain p). auto.
Qed.

(** Size checks come first and change nothing. *)
Lemma raised_degrees_size limit c ops st d : reached limit c ops st ->
  attached_edits false ops -> index_kept false ops -> needs_kvs c = true ->
  forall s, s_core st = Some s -> length d <> length (sp_axes s) ->
  exists st', step limit c st (SetDegrees d) = Raised st' /\ reads st' = reads st.
Proof.
  intros R A B W s Es L. destruct (reached_inv limit c ops st true true false R) as
    [s0 [F [H [T [Sy [M _]]]]]]; auto; try discriminate.
  assert (s0 = s) by (rewrite (i_core H) in Es; congruence). subst s0.
  cbn [step]. unfold set_degrees.
  assert (G := inv_kvs c F s st H). assert (RK := read_kvs c F s st W Sy H).
  assert (KK := kvs_keeps st).
  destruct (get_kvs st) as [k st1] eqn:EK. cbn [fst snd] in *. subst k.
  destruct (Nat.eqb_spec (length (core_kvs s)) (length d)) as [X|X]; cbn [negb].
  { exfalso. apply L. rewrite <- X. unfold core_kvs. apply map_length. }
  exists st1. split; [reflexivity|]. apply (reads_from_inv c F F st st1 s); auto.
  intros _. destruct KK as [_ [_ [_ K]]]. exact K.
Qed.

Lemma raised_cps_size limit c st q w : s_ws st = Some w -> length (a_val w) <> length q ->
  step limit c st (SetCps q) = Raised st.
Proof.
  intros E L. cbn [step]. unfold set_cps. rewrite E.
  destruct (Nat.eqb_spec (length (a_val w)) (length q)); [easy|reflexivity].
Qed.
Lemma raised_ws_size limit c st q p : s_cps st = Some p -> length (a_val p) <> length q ->
  step limit c st (SetWs q) = Raised st.
Proof.
  intros E L. cbn [step]. unfold set_ws. rewrite E.
  destruct (Nat.eqb_spec (length (a_val p)) (length q)); [easy|reflexivity].
Qed.
