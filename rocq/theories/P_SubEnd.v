(** Proofs for extracted parts of splines: the upper end of an interval. *)
From Coq Require Import List Arith ZArith Bool QArith Qcanon Lia Sorted Permutation.
From Verif Require Import Base BaseRadix BaseQc S_Grid P_Grid S_Spline S_Value P_Spline P_Basis P_Value S_Integrate S_Exact P_Poly P_Smooth S_Create P_Create S_SubSpline P_SubSpline P_SubRounds.
Import ListNotations.
Local Open Scope list_scope.
Local Open Scope nat_scope.

(** Below a value the basis functions are those of one span, the value included. *)
Lemma left_piece p a b kv x : shape p a b kv -> (a < x)%Qc -> (x <= b)%Qc -> x = b \/ times x kv <= p ->
  exists y s, (a <= y)%Qc /\ (y < x)%Qc /\ forall i u, (y <= u)%Qc -> (u <= x)%Qc -> ax_fun (KnotAxis p kv) u i = basis (kn kv) s p i u.
Proof.
  intros Sh Ax Xb H. destruct (shape_wf p a b kv Sh) as (W & C & Lo & Up). cbn [ax_wf ax_lower ax_upper] in *. cbn [ax_fun]. set (n := ax_n (KnotAxis p kv)) in *.
  pose proof W as (Ln & N & _). pose proof (kn_mono kv N) as M.
  destruct (sorted_parts x kv (sh_sorted _ _ _ _ Sh)) as (l1 & l2 & E & F1 & F2). set (m := times x kv) in *. 
  assert (times a l1 = p + 1) as T1.
  { rewrite <- (sh_low _ _ _ _ Sh). rewrite E at 1. rewrite !times_app, (times_none a (repeat _ _)), (times_none a l2); [lia| |].
    - intros I. rewrite Forall_forall in F2. specialize (F2 _ I). qlra.
    - intros I. apply repeat_spec in I. rewrite I in Ax. qlra. }
  assert (p + 1 <= length l1) as L1. { rewrite <- T1. clear. induction l1; [auto|]. rewrite times_cons. cbn [length]. destruct (Qc_eq_dec _ _); lia. }
  assert (p + 1 <= m + length l2) as L2.
  { pose proof (sh_high _ _ _ _ Sh) as T2. rewrite E in T2. rewrite !times_app, (times_none b l1) in T2.
    - assert (forall l, times b l <= length l) as Le. { clear. induction l; [auto|]. rewrite times_cons. cbn [length]. destruct (Qc_eq_dec _ _); lia. }
      pose proof (Le (repeat x m)). pose proof (Le l2). rewrite repeat_length in *. lia.
    - intros I. rewrite Forall_forall in F1. specialize (F1 _ I). qlra. }
  assert (length kv = length l1 + (m + length l2)) as Lkv by (rewrite E, !app_length, repeat_length; reflexivity).
  set (s := length l1 - 1).
  assert (kn kv s < x)%Qc as Ys. { rewrite E, kn_app1 by lia. rewrite Forall_forall in F1. apply F1, nth_In. lia. }
  assert (forall j, s < j -> j <= s + m -> kn kv j = x) as Eq.
  { intros j J1 J2. rewrite E, kn_app2 by (rewrite ?app_length, ?repeat_length; lia). rewrite kn_app1 by (rewrite repeat_length; lia). apply nth_repeat_in. lia. }
  assert (forall j, s + m < j -> j < length kv -> (x < kn kv j)%Qc) as Gt.
  { intros j J1 J2. rewrite E, kn_app2 by (rewrite ?app_length, ?repeat_length; lia). rewrite kn_app2 by (rewrite ?repeat_length; lia). rewrite repeat_length.
    rewrite Forall_forall in F2. apply F2. apply kn_in. lia. }
  assert (p <= s /\ s < n) as [P1 P2] by lia.
  assert (x <= kn kv (S s))%Qc as Us. { destruct (Nat.eq_dec m 0) as [Z|Z]; [|rewrite (Eq (S s)) by lia; qlra]. pose proof (Gt (S s) ltac:(lia) ltac:(lia)). qlra. }
  assert (kn kv s < kn kv (S s))%Qc as Hs by qlra.
  exists (kn kv s), s. split; [rewrite <- Lo; now apply M|]. split; [exact Ys|]. intros i u U1 U2. unfold bspline_basis.
  assert (in_domain p n kv u) as D. { split; [pose proof (M p s P1); qlra|rewrite Up; qlra]. }
  destruct (Qclt_le_dec u x) as [L|L].
  { rewrite (find_span_unique kv p n u s W D); [reflexivity|]. repeat (split; [lia || assumption|]). left. qlra. }
  assert (u = x) as -> by (apply Qcle_antisym; auto).
  destruct (Qc_eq_dec x b) as [Xe|Xe].
  { rewrite (find_span_unique kv p n x s W D); [reflexivity|]. repeat (split; [lia || assumption|]). right.
    assert (kn kv (S s) = x) as ->; [|now rewrite Up].
    apply Eq; [lia|]. assert (m = p + 1) by (unfold m; rewrite Xe; apply (sh_high _ _ _ _ Sh)). lia. }
  destruct H as [H|H]; [contradiction|].
  assert (x < b)%Qc as Xlt by (apply Qcle_lt_or_eq in Xb as [|]; auto; contradiction).
  assert (s + m < n) as P3.
  { destruct (le_lt_dec n (s + m)) as [Q|Q]; auto. exfalso. assert (kn kv n = x) as X by (apply Eq; lia). rewrite Up in X. congruence. }
  assert (kn kv (s + m) <= x)%Qc as Um. { destruct (Nat.eq_dec m 0) as [Z|Z]; [rewrite Z, Nat.add_0_r; qlra|]. rewrite Eq by lia. qlra. }
  assert (x < kn kv (S (s + m)))%Qc as Um' by (apply Gt; lia).
  rewrite (find_span_unique kv p n x (s + m) W D).
  - rewrite !basis_blossom. symmetry. apply (blossom_change_span (kn kv) s (s + m) x (repeat x p) (repeat x (p - m)) i M Hs); [qlra|lia|exact Eq|].
    replace (s + m - s) with m by lia. rewrite <- repeat_app. replace (m + (p - m)) with p by lia. apply Permutation_refl.
  - repeat (split; [lia || assumption || qlra|]). now left.
Qed.

(** Polynomials that agree below a value agree there. *)
Lemma pol_agree k l f g y x : pol k f -> pol l g -> (y < x)%Qc -> (forall u, (y <= u)%Qc -> (u < x)%Qc -> f u = g u) -> f x = g x.
Proof.
  intros Pf Pg Hy H.
  destruct (pol_sub (Nat.max k l) f g (pol_weaken _ _ _ (Nat.le_max_l k l) Pf) (pol_weaken _ _ _ (Nat.le_max_r k l) Pg)) as (c & Lc & Ec).
  assert (forall v, peval c v = 0%Qc) as Z.
  { apply peval_zero. set (h := ((x - y) / inj (S (length c)))%Qc). assert (0 < inj (S (length c)))%Qc as I0 by (apply inj_pos; lia).
    assert (0 < h)%Qc as H0. { unfold h, Qcdiv. apply Qc_mul_pos; [clear - Hy; qlra|now apply Qc_inv_pos]. }
    assert (inj (S (length c)) * h = x - y)%Qc as Hh. { unfold h. field. intros E. rewrite E in I0. qlra. }
    apply (roots_zero (length c) c (map (fun i => (y + inj i * h)%Qc) (seq 0 (length c)))); auto.
    - apply FinFun.Injective_map_NoDup; [|apply seq_NoDup]. intros i j E.
      assert (inj i = inj j)%Qc as E2. { assert (inj i * h = inj j * h)%Qc as E3 by (clear - E; qlra). apply (f_equal (fun z => z / h)%Qc) in E3.
        assert (forall z, z * h / h = z)%Qc as Cn by (intros z; field; intros E4; rewrite E4 in H0; qlra). now rewrite !Cn in E3. }
      now apply inj_inj.
    - rewrite map_length, seq_length. auto.
    - intros v I. apply in_map_iff in I as (i & <- & I). apply in_seq in I. rewrite <- Ec.
      assert (0 <= inj i)%Qc as I1 by apply inj_nonneg.
      assert (inj i < inj (S (length c)))%Qc as I2 by (apply inj_lt; lia).
      rewrite H; [ring| |].
      + assert (0 <= inj i * h)%Qc by (apply Qc_mul_nonneg; auto; now apply Qclt_le_weak). qlra.
      + assert (0 < (inj (S (length c)) - inj i) * h)%Qc as I3 by (apply Qc_mul_pos; auto; qlra).
        assert ((inj (S (length c)) - inj i) * h = x - y - inj i * h)%Qc as I4 by (rewrite <- Hh; ring). rewrite I4 in I3. qlra. }
  specialize (Ec x). rewrite Z in Ec. assert (f x - g x + g x = 0 + g x)%Qc as E by now rewrite Ec. 
  assert (f x - g x + g x = f x)%Qc as E1 by ring. rewrite E1 in E. rewrite E. ring.
Qed.

Lemma functional_poly pre a post v1 v2 U s p y x f : length v1 = length pre -> length v2 = length post ->
  (forall i u, (y <= u)%Qc -> (u <= x)%Qc -> ax_fun a u i = basis U s p i u) ->
  exists g, pol p g /\ forall u, (y <= u)%Qc -> (u <= x)%Qc -> functional (pre ++ a :: post) (v1 ++ u :: v2) f = g u.
Proof.
  intros L1 L2 H.
  set (F := fun i => tensor (sp_basis pre v1 ++ sp_basis post v2) (fun ix => f (flat_id (map ax_n (pre ++ a :: post)) (firstn (length pre) ix ++ i :: skipn (length pre) ix)))).
  exists (fun u => qsum (map (fun i => basis U s p i u * F i)%Qc (seq 0 (ax_n a)))). split.
  - apply pol_sum. intros i _. apply pol_scale_r. destruct (basis_poly U s p i) as (B & LB & EB & _). now exists B.
  - intros u U1 U2. unfold functional. rewrite sp_basis_app by auto.
    change (sp_basis (a :: post) (u :: v2)) with ((ax_n a, ax_fun a u) :: sp_basis post v2). rewrite tensor_axis, sp_basis_length by auto.
    apply qsum_ext. intros i _. rewrite H by auto. reflexivity.
Qed.

(** The value at the upper end follows from the values below. *)
Definition positive_weights (s : spline) : Prop := match sp_weights s with Some ws => Forall (fun w => (0 < w)%Qc) ws | None => True end.
Lemma value_end pre post a a' s r p U i p' U' i' x y v1 v2 d : sp_axes s = pre ++ a :: post -> sp_axes r = pre ++ a' :: post ->
  sp_wf s -> sp_wf r -> positive_weights s -> positive_weights r -> (sp_weights r = None <-> sp_weights s = None) ->
  Forall2 ax_domain pre v1 -> Forall2 ax_domain post v2 -> (y < x)%Qc ->
  (forall u, (y <= u)%Qc -> (u <= x)%Qc -> ax_domain a u /\ ax_domain a' u) ->
  (forall j u, (y <= u)%Qc -> (u <= x)%Qc -> ax_fun a u j = basis U i p j u) ->
  (forall j u, (y <= u)%Qc -> (u <= x)%Qc -> ax_fun a' u j = basis U' i' p' j u) ->
  (forall u, (y <= u)%Qc -> (u < x)%Qc -> sp_value r (v1 ++ u :: v2) d = sp_value s (v1 ++ u :: v2) d) ->
  sp_value r (v1 ++ x :: v2) d = sp_value s (v1 ++ x :: v2) d.
Proof.
  intros Es Er Ws Wr Ps Pr Kw D1 D2 Hy D B B' V.
  assert (length v1 = length pre) as L1 by (symmetry; exact (Forall2_len _ _ _ D1)). assert (length v2 = length post) as L2 by (symmetry; exact (Forall2_len _ _ _ D2)).
  assert (forall u, (y <= u)%Qc -> (u <= x)%Qc -> Forall2 ax_domain (pre ++ a :: post) (v1 ++ u :: v2) /\ Forall2 ax_domain (pre ++ a' :: post) (v1 ++ u :: v2)) as DD.
  { intros u U1 U2. destruct (D u U1 U2). split; apply Forall2_app; auto. }
  pose proof (fun u U1 U2 => V u U1 U2) as V'. clear V.
  rewrite !sp_value_functional. rewrite Es, Er.
  assert (forall u, (y <= u)%Qc -> (u < x)%Qc -> 
    match sp_weights r with
    | None => functional (pre ++ a' :: post) (v1 ++ u :: v2) (fun g => nth d (nth g (sp_cps r) []) 0)
    | Some ws => functional (pre ++ a' :: post) (v1 ++ u :: v2) (fun g => nth g ws 0 * nth d (nth g (sp_cps r) []) 0) / functional (pre ++ a' :: post) (v1 ++ u :: v2) (fun g => nth g ws 0)
    end = match sp_weights s with
    | None => functional (pre ++ a :: post) (v1 ++ u :: v2) (fun g => nth d (nth g (sp_cps s) []) 0)
    | Some ws => functional (pre ++ a :: post) (v1 ++ u :: v2) (fun g => nth g ws 0 * nth d (nth g (sp_cps s) []) 0) / functional (pre ++ a :: post) (v1 ++ u :: v2) (fun g => nth g ws 0)
    end)%Qc as V. { intros u U1 U2. specialize (V' u U1 U2). rewrite !sp_value_functional, Es, Er in V'. exact V'. }
  clear V'. destruct Ws as (Fs & _ & Lws), Wr as (Fr & _ & Lwr). rewrite Es in Fs. rewrite Er in Fr. unfold positive_weights in *.
  unfold sp_res in *. rewrite Es in Lws. rewrite Er in Lwr.
  destruct (sp_weights r) as [wr|], (sp_weights s) as [ws|]; try (exfalso; destruct Kw as [K1 K2]; (discriminate (K1 eq_refl) || discriminate (K2 eq_refl))).
  - destruct (functional_poly pre a' post v1 v2 U' i' p' y x (fun g => nth g wr 0 * nth d (nth g (sp_cps r) []) 0)%Qc L1 L2 B') as (nr & Pnr & Enr).
    destruct (functional_poly pre a' post v1 v2 U' i' p' y x (fun g => nth g wr 0)%Qc L1 L2 B') as (dr & Pdr & Edr).
    destruct (functional_poly pre a post v1 v2 U i p y x (fun g => nth g ws 0 * nth d (nth g (sp_cps s) []) 0)%Qc L1 L2 B) as (ns & Pns & Ens).
    destruct (functional_poly pre a post v1 v2 U i p y x (fun g => nth g ws 0)%Qc L1 L2 B) as (ds & Pds & Eds).
    assert (forall u, (y <= u)%Qc -> (u <= x)%Qc -> dr u <> 0%Qc /\ ds u <> 0%Qc) as NZ.
    { intros u U1 U2. destruct (DD u U1 U2) as [DD1 DD2]. rewrite <- Edr, <- Eds by auto. split; apply not_eq_sym, Qclt_not_eq; eapply functional_pos; eauto. }
    assert (forall A B C D : Qc, B <> 0 -> D <> 0 -> (A / B = C / D <-> A * D = C * B))%Qc as Cross.
    { clear. intros A B C D NB ND. split; intros E.
      - assert (A = A / B * B)%Qc as -> by (field; auto). rewrite E. field. auto.
      - assert (A = A * D / D)%Qc as -> by (field; auto). rewrite E. field. auto. }
    assert (y <= x)%Qc as Yx by now apply Qclt_le_weak.
    rewrite Enr, Edr, Ens, Eds by (auto; apply Qcle_refl). destruct (NZ x Yx (Qcle_refl x)). apply Cross; auto.
    apply (pol_agree (p' + p) (p + p') (fun u => nr u * ds u)%Qc (fun u => ns u * dr u)%Qc y x); auto using pol_mul.
    intros u U1 U2. assert (u <= x)%Qc as U3 by now apply Qclt_le_weak. destruct (NZ u U1 U3). apply Cross; auto.
    rewrite <- Enr, <- Edr, <- Ens, <- Eds by auto. now apply V.
  - destruct (functional_poly pre a' post v1 v2 U' i' p' y x (fun g => nth d (nth g (sp_cps r) []) 0)%Qc L1 L2 B') as (nr & Pnr & Enr).
    destruct (functional_poly pre a post v1 v2 U i p y x (fun g => nth d (nth g (sp_cps s) []) 0)%Qc L1 L2 B) as (ns & Pns & Ens).
    assert (y <= x)%Qc as Yx by now apply Qclt_le_weak.
    rewrite Enr, Ens by (auto; apply Qcle_refl). apply (pol_agree p' p nr ns y x); auto.
    intros u U1 U2. assert (u <= x)%Qc as U3 by now apply Qclt_le_weak. rewrite <- Enr, <- Ens by auto. now apply V.
Qed.
