(** Polynomials: closure, roots, primitives. *)
From Coq Require Import List Arith ZArith Lia Bool QArith Qcanon.
From Verif Require Import Base BaseQc S_Grid S_Spline S_Value S_Deriv P_Deriv S_Integrate S_Exact.
Import ListNotations.
Local Open Scope list_scope.
Local Open Scope nat_scope.

(** * Functions that are polynomials *)
Fixpoint padd (c d : list Qc) : list Qc :=
  match c, d with
  | [], d => d
  | c, [] => c
  | a :: c, b :: d => (a + b)%Qc :: padd c d
  end.
Lemma peval_padd c d x : peval (padd c d) x = (peval c x + peval d x)%Qc.
Proof. revert d. induction c as [|a c IH]; intros [|b d]; cbn [padd peval]; try ring. rewrite IH. ring. Qed.
Lemma length_padd c d : length (padd c d) = Nat.max (length c) (length d).
Proof. revert d. induction c as [|a c IH]; intros [|b d]; cbn [padd length]; try lia. rewrite IH. lia. Qed.
Definition pscale (k : Qc) (c : list Qc) : list Qc := map (Qcmult k) c.
Lemma peval_pscale k c x : peval (pscale k c) x = (k * peval c x)%Qc.
Proof. induction c as [|a c IH]; cbn [pscale map peval]; [ring|]. fold (pscale k c). rewrite IH. ring. Qed.
Fixpoint pmul (c d : list Qc) : list Qc :=
  match c with [] => [] | a :: c => padd (pscale a d) (0%Qc :: pmul c d) end.
Lemma peval_pmul c d x : peval (pmul c d) x = (peval c x * peval d x)%Qc.
Proof. induction c as [|a c IH]; cbn [pmul peval]; [ring|]. rewrite peval_padd, peval_pscale. cbn [peval]. rewrite IH. ring. Qed.
Lemma length_pmul c d : c <> [] -> length (pmul c d) <= length c + length d - 1 \/ d = [].
Proof.
  intros _. destruct d as [|b d]; [now right|left]. induction c as [|a c IH]; [cbn; lia|]. cbn [pmul length]. rewrite length_padd. unfold pscale. rewrite map_length. cbn [length] in *. lia.
Qed.
Lemma pol_ext k f g : (forall x, f x = g x) -> pol k f -> pol k g.
Proof. intros E (c & L & H). exists c. split; auto. intros x. now rewrite <- E. Qed.
Lemma pol_weaken k l f : k <= l -> pol k f -> pol l f.
Proof. intros H (c & L & E). exists c. split; auto. lia. Qed.
Lemma pol_const k a : pol k (fun _ => a).
Proof. exists [a]. split; [cbn; lia|]. intros x. cbn. ring. Qed.
Lemma pol_id k : 1 <= k -> pol k (fun x => x).
Proof. intros H. exists [0; 1]%Qc. split; [cbn; lia|]. intros x. cbn. ring. Qed.
Lemma pol_add k f g : pol k f -> pol k g -> pol k (fun x => f x + g x)%Qc.
Proof. intros (c & L & E) (d & L' & E'). exists (padd c d). split; [rewrite length_padd; lia|]. intros x. now rewrite peval_padd, E, E'. Qed.
Lemma pol_mul k l f g : pol k f -> pol l g -> pol (k + l) (fun x => f x * g x)%Qc.
Proof.
  intros (c & L & E) (d & L' & E'). exists (pmul c d). split.
  - destruct c as [|a c]; [cbn; lia|]. destruct (length_pmul (a :: c) d) as [H| ->]; [discriminate|lia|].
    assert (forall c, length (pmul c []) <= length c) as G by (clear; induction c as [|b c IH]; [cbn; lia|]; cbn [pmul length pscale map]; rewrite length_padd; cbn [length]; lia). specialize (G (a :: c)). lia.
  - intros x. now rewrite peval_pmul, E, E'.
Qed.
Lemma pol_scale k a f : pol k f -> pol k (fun x => a * f x)%Qc.
Proof. intros H. apply (pol_mul 0 k (fun _ => a)); auto. apply pol_const. Qed.
Lemma pol_scale_r k a f : pol k f -> pol k (fun x => f x * a)%Qc.
Proof. intros H. apply (pol_ext _ (fun x => a * f x)%Qc); [intros; ring|now apply pol_scale]. Qed.
Lemma pol_sum {A} k (f : A -> Qc -> Qc) l : (forall i, In i l -> pol k (f i)) -> pol k (fun x => qsum (map (fun i => f i x) l)).
Proof.
  induction l as [|i l IH]; intros H; [apply (pol_const k 0%Qc)|]. cbn [map qsum]. apply (pol_add k (f i) (fun x => qsum (map (fun i => f i x) l))).
  - apply H. now left.
  - apply IH. intros j Hj. apply H. now right.
Qed.
Lemma pol_sub k f g : pol k f -> pol k g -> pol k (fun x => f x - g x)%Qc.
Proof. intros H H'. apply (pol_ext _ (fun x => f x + (- (1)) * g x)%Qc); [intros; ring|]. apply pol_add; auto. now apply pol_scale. Qed.
Lemma pol_subst k f a h : pol k f -> pol k (fun x => f (a + x * h)%Qc).
Proof.
  intros (c & L & E). apply (pol_ext _ (fun x => peval c (a + x * h)%Qc)); [intros; now rewrite E|]. clear f E. revert k L. induction c as [|b c IH]; intros k L.
  - apply (pol_const k 0%Qc).
  - cbn [peval]. cbn [length] in L. apply pol_add; [apply pol_const|]. destruct c as [|b' c].
    + apply (pol_ext _ (fun _ => 0%Qc)); [intros; cbn; ring|apply pol_const].
    + destruct k as [|k]; [cbn in L; lia|]. apply (pol_mul 1 k (fun x => a + x * h)%Qc).
      * apply pol_add; [apply pol_const|]. apply pol_scale_r. now apply pol_id.
      * apply IH. lia.
Qed.

(** * Roots *)
Fixpoint quot (c : list Qc) (r : Qc) : list Qc :=
  match c with [] => [] | a :: c => match c with [] => [] | _ => peval c r :: quot c r end end.
Lemma quot_cons a b c r : quot (a :: b :: c) r = peval (b :: c) r :: quot (b :: c) r.
Proof. reflexivity. Qed.
Lemma quot_spec c r x : peval c x = (peval c r + (x - r) * peval (quot c r) x)%Qc.
Proof.
  induction c as [|a c IH]; [cbn; ring|]. destruct c as [|b c]; [cbn; ring|]. rewrite quot_cons. set (d := b :: c) in *. clearbody d. cbn [peval]. rewrite IH at 1. ring.
Qed.
Lemma quot_length c r : length (quot c r) = length c - 1.
Proof. induction c as [|a c IH]; [reflexivity|]. destruct c as [|b c]; [reflexivity|]. rewrite quot_cons. cbn [length] in *. lia. Qed.
Lemma peval_zero c : Forall (fun a => a = 0%Qc) c -> forall x, peval c x = 0%Qc.
Proof. induction 1 as [|a c -> H IH]; intros x; cbn [peval]; [auto|]. rewrite IH. ring. Qed.
Lemma quot_zero a c r : Forall (fun a => a = 0%Qc) (quot (a :: c) r) -> Forall (fun a => a = 0%Qc) c.
Proof.
  revert a. induction c as [|b c IH]; intros a H; [constructor|]. rewrite quot_cons in H. inversion H as [|x l E H']; subst. specialize (IH b H'). constructor; auto.
  cbn [peval] in E. rewrite peval_zero in E by auto. rewrite <- E. ring.
Qed.
Lemma roots_zero n : forall c pts, length c <= n -> NoDup pts -> n <= length pts -> (forall x, In x pts -> peval c x = 0%Qc) -> Forall (fun a => a = 0%Qc) c.
Proof.
  induction n as [|n IH]; intros c pts Lc N Lp H. { destruct c; [constructor|cbn in Lc; lia]. }
  destruct pts as [|r pts]; [cbn in Lp; lia|]. destruct c as [|a c]; [constructor|]. inversion N as [|? ? Nr N']; subst.
  assert (Forall (fun a => a = 0%Qc) (quot (a :: c) r)) as Q.
  { apply (IH _ pts); auto.
    - rewrite quot_length. cbn [length] in *. lia.
    - cbn in Lp. lia.
    - intros x Hx. pose proof (quot_spec (a :: c) r x) as E. rewrite (H x (or_intror Hx)), (H r (or_introl eq_refl)) in E.
      assert ((x - r) * peval (quot (a :: c) r) x = 0)%Qc as Z by (rewrite E; ring). apply Qcmult_integral in Z as [Z|Z]; auto.
      exfalso. apply Nr. replace r with x; auto. rewrite <- (Qcplus_0_l r), <- Z. ring. }
  apply quot_zero in Q. constructor; auto. specialize (H r (or_introl eq_refl)). cbn [peval] in H. rewrite peval_zero in H by auto. rewrite <- H. ring.
Qed.
Definition naturals (n : nat) : list Qc := map inj (seq 0 n).
Lemma naturals_nodup n : NoDup (naturals n).
Proof. apply FinFun.Injective_map_NoDup; [intros a b; apply inj_inj|apply seq_NoDup]. Qed.
Lemma same_coefficients c : (forall x, peval c x = 0%Qc) -> Forall (fun a => a = 0%Qc) c.
Proof. intros H. apply (roots_zero (length c) c (naturals (length c))); auto using naturals_nodup. unfold naturals. rewrite map_length, seq_length. lia. Qed.

(** * Derivatives and primitives *)
Fixpoint pder (c : list Qc) : list Qc := match c with [] => [] | a :: c => padd c (0%Qc :: pder c) end.
Lemma pder_padd c d x : peval (pder (padd c d)) x = (peval (pder c) x + peval (pder d) x)%Qc.
Proof.
  revert d. induction c as [|a c IH]; intros [|b d]; cbn [padd pder peval]; try ring. rewrite !peval_padd. cbn [peval]. rewrite ?peval_padd, IH. ring.
Qed.
Lemma pder_pscale k c x : peval (pder (pscale k c)) x = (k * peval (pder c) x)%Qc.
Proof. induction c as [|a c IH]; cbn [pscale map pder peval]; [ring|]. fold (pscale k c). rewrite !peval_padd. cbn [peval]. rewrite IH, peval_pscale. ring. Qed.
Lemma pder_pmul c d x : peval (pder (pmul c d)) x = (peval (pder c) x * peval d x + peval c x * peval (pder d) x)%Qc.
Proof.
  induction c as [|a c IH]; cbn [pmul pder peval]; [ring|]. rewrite pder_padd, pder_pscale. cbn [pder]. rewrite !peval_padd. cbn [peval]. rewrite IH, peval_pmul. ring.
Qed.
Lemma pder_zero c : (forall x, peval (pder c) x = 0%Qc) -> forall x y, peval c x = peval c y.
Proof.
  intros H. apply same_coefficients in H. destruct c as [|a c]; [reflexivity|]. assert (Forall (fun a => a = 0%Qc) c) as Z.
  { cbn [pder] in H. assert (forall n c, length c = n -> forall k, (0 <= k)%Qc -> Forall (fun a => a = 0%Qc) (padd (pscale (k + 1) c) (0%Qc :: pder c)) -> Forall (fun a => a = 0%Qc) c) as G.
    { clear. induction n as [|n IH]; intros c L k Hk H; [destruct c; [constructor|discriminate]|]. destruct c as [|a c]; [discriminate|].
      cbn [pscale map padd pder] in H. fold (pscale (k + 1) c) in H. inversion H as [|x l E H']; subst.
      assert (a = 0%Qc) as ->.
      { assert ((k + 1) * a = 0)%Qc as Z by (rewrite <- E; ring). apply Qcmult_integral in Z as [Z|Z]; auto. exfalso. qlra. }
      constructor; auto. apply (IH c ltac:(now injection L) (k + 1)%Qc); [qlra|].
      replace (padd (pscale (k + 1 + 1) c) (0%Qc :: pder c)) with (padd (pscale (k + 1) c) (padd c (0%Qc :: pder c))); auto.
      clear. assert (forall c d, padd (pscale (k + 1) c) (padd c d) = padd (pscale (k + 1 + 1) c) d) as G.
      { clear c. induction c as [|a c IH]; intros [|b d]; cbn [pscale map padd]; auto; f_equal; try ring; [|apply IH].
        fold (pscale (k + 1) c) (pscale (k + 1 + 1) c). specialize (IH []). destruct c as [|a' c]; [reflexivity|]. cbn [pscale map padd] in *. exact IH. }
      apply G. }
    apply (G (length c) c eq_refl 0%Qc (Qcle_refl 0)). replace (pscale (0 + 1) c) with c; auto. unfold pscale. rewrite <- (map_id c) at 1. apply map_ext. intros; ring. }
  intros x y. cbn [peval]. rewrite !(peval_zero c) by auto. ring.
Qed.
Lemma pder_antideriv c x : peval (pder (antideriv c)) x = peval c x.
Proof.
  unfold antideriv. cbn [pder]. rewrite peval_padd. cbn [peval].
  assert (forall c k x, (inj k + 1) * peval (map (fun ia : nat * Qc => snd ia / inj (S (fst ia))) (combine (seq k (length c)) c)) x
     + x * peval (pder (map (fun ia : nat * Qc => snd ia / inj (S (fst ia))) (combine (seq k (length c)) c))) x = peval c x)%Qc as G.
  { clear. induction c as [|a c IH]; intros k x; cbn [length seq combine map pder peval fst snd]; [ring|]. rewrite peval_padd. cbn [peval].
    rewrite <- (IH (S k) x). rewrite inj_S. assert (inj k + 1 <> 0)%Qc as N by (intros Z; assert (0 <= inj k)%Qc by apply inj_nonneg; qlra).
    set (p := peval _ x). set (q := peval (pder _) x). clearbody p q. field. auto. }
  specialize (G c 0 x). rewrite <- G. change (inj 0) with 0%Qc. ring.
Qed.
(** Difference of the values of the primitive. *)
Definition pdiff (c : list Qc) (a b : Qc) : Qc := (peval (antideriv c) b - peval (antideriv c) a)%Qc.
Lemma pdiff_der c d a b : (forall x, peval (pder d) x = peval c x) -> (peval d b - peval d a = pdiff c a b)%Qc.
Proof.
  intros H. unfold pdiff. set (e := padd d (pscale (- (1))%Qc (antideriv c))).
  assert (forall x, peval e x = peval d x - peval (antideriv c) x)%Qc as E by (intros x; unfold e; rewrite peval_padd, peval_pscale; ring).
  assert (peval e b = peval e a) as Z. { apply pder_zero. intros x. unfold e. rewrite pder_padd, pder_pscale, pder_antideriv, H. ring. }
  rewrite !E in Z. assert (peval d b = peval (antideriv c) b + (peval d a - peval (antideriv c) a))%Qc as -> by (rewrite <- Z; ring). ring.
Qed.
Lemma pdiff_ext c d a b : (forall x, peval c x = peval d x) -> pdiff c a b = pdiff d a b.
Proof. intros H. unfold pdiff at 1. apply pdiff_der. intros x. now rewrite pder_antideriv. Qed.
Lemma pdiff_split c x y z : (pdiff c x y + pdiff c y z = pdiff c x z)%Qc.
Proof. unfold pdiff. ring. Qed.
(** Substitution. *)
Definition plin (a h : Qc) (d : list Qc) : list Qc := match d with [] => [] | _ => pmul [a; h] d end.
Lemma peval_plin a h d x : peval (plin a h d) x = ((a + x * h) * peval d x)%Qc.
Proof. destruct d; [cbn; ring|]. unfold plin. rewrite peval_pmul. cbn [peval]. ring. Qed.
Lemma pder_plin a h d x : peval (pder (plin a h d)) x = (h * peval d x + (a + x * h) * peval (pder d) x)%Qc.
Proof. destruct d; [cbn; ring|]. unfold plin. rewrite pder_pmul. cbn [pder peval padd]. ring. Qed.
Fixpoint psub (c : list Qc) (a h : Qc) : list Qc := match c with [] => [] | b :: c => padd [b] (plin a h (psub c a h)) end.
Lemma peval_psub c a h x : peval (psub c a h) x = peval c (a + x * h)%Qc.
Proof. induction c as [|b c IH]; cbn [psub]; [reflexivity|]. rewrite peval_padd, peval_plin, IH. cbn [peval]. ring. Qed.
Lemma pder_psub c a h x : peval (pder (psub c a h)) x = (h * peval (pder c) (a + x * h))%Qc.
Proof.
  induction c as [|b c IH]; cbn [psub]; [cbn; ring|]. rewrite pder_padd, pder_plin, IH, peval_psub. cbn [pder peval padd]. rewrite peval_padd. cbn [peval padd]. ring.
Qed.
Lemma length_psub c a h : length (psub c a h) <= length c.
Proof.
  induction c as [|b c IH]; [cbn; lia|]. cbn [psub]. rewrite length_padd. cbn [length].
  set (d := psub c a h) in *. clearbody d. destruct d as [|x d]; [cbn; lia|]. unfold plin. destruct (length_pmul [a; h] (x :: d)) as [L|E]; [discriminate| |discriminate]. cbn [length] in *. lia.
Qed.
Lemma pdiff_scale h c x y : pdiff (pscale h c) x y = (h * pdiff c x y)%Qc.
Proof.
  unfold pdiff. replace (antideriv (pscale h c)) with (pscale h (antideriv c)).
  - rewrite !peval_pscale. ring.
  - unfold antideriv, pscale. cbn [map]. f_equal; [ring|]. rewrite map_length. generalize 0 as k. induction c as [|b d IH]; intros k; [reflexivity|].
    cbn [length seq combine map fst snd]. f_equal; [|apply IH]. unfold Qcdiv. ring.
Qed.
Lemma pdiff_subst c a h x y : (h * (pdiff (psub c a h) x y) = pdiff c (a + x * h) (a + y * h))%Qc.
Proof.
  unfold pdiff at 2. rewrite <- !(peval_psub (antideriv c)).
  rewrite (pdiff_der (pscale h (psub c a h)) (psub (antideriv c) a h)).
  - now rewrite pdiff_scale.
  - intros z. now rewrite pder_psub, pder_antideriv, peval_pscale, peval_psub.
Qed.

(** * Uniform differences *)
Lemma qabs_ge x : (x <= qabs x)%Qc.
Proof. destruct (Qclt_le_dec x 0) as [H|H]; [rewrite qabs_neg_eq by (now apply Qclt_le_weak)|rewrite qabs_pos_eq by auto]; qlra. Qed.
Lemma interval_abs a b x : (a <= x)%Qc -> (x <= b)%Qc -> (qabs x <= qabs a + qabs b)%Qc.
Proof.
  intros H H'. pose proof (qabs_ge b). pose proof (qabs_ge (- a)%Qc) as Ha. rewrite qabs_opp in Ha. pose proof (qabs_nonneg a). pose proof (qabs_nonneg b).
  destruct (Qclt_le_dec x 0) as [L|L]; [rewrite (qabs_neg_eq x) by (now apply Qclt_le_weak)|rewrite (qabs_pos_eq x) by auto]; qlra.
Qed.
Lemma poly_bounded c a b : exists M, (0 <= M)%Qc /\ forall x, (a <= x)%Qc -> (x <= b)%Qc -> (qabs (peval c x) <= M)%Qc.
Proof.
  induction c as [|s c (M & HM & IH)].
  - exists 0%Qc. split; [apply Qcle_refl|]. intros x _ _. discriminate.
  - set (B := (qabs a + qabs b)%Qc). assert (0 <= B)%Qc as HB by (unfold B; pose proof (qabs_nonneg a); pose proof (qabs_nonneg b); qlra).
    exists (qabs s + B * M)%Qc. pose proof (qabs_nonneg s) as Hs. split. { assert (0 <= B * M)%Qc by now apply Qc_mul_nonneg. qlra. }
    intros x H H'. cbn [peval]. eapply Qcle_trans; [apply qabs_add|]. rewrite qabs_mul. specialize (IH x H H').
    pose proof (interval_abs a b x H H') as Hx. fold B in Hx.
    assert (qabs x * qabs (peval c x) <= B * M)%Qc as G.
    { eapply Qcle_trans; [apply Qcmult_le_compat_r; [exact Hx|apply qabs_nonneg]|]. rewrite !(Qcmult_comm B). apply Qcmult_le_compat_r; auto. }
    qlra.
Qed.
Lemma poly_taylor d a b : exists M, (0 <= M)%Qc /\ forall x y, (a <= x)%Qc -> (x <= b)%Qc -> (a <= y)%Qc -> (y <= b)%Qc ->
  (qabs (peval d y - peval d x - peval (pder d) x * (y - x)) <= M * (qabs (y - x) * qabs (y - x)))%Qc.
Proof.
  induction d as [|s d (M & HM & IH)].
  - exists 0%Qc. split; [apply Qcle_refl|]. intros x y _ _ _ _. cbn [peval pder]. replace (0 - 0 - 0 * (y - x))%Qc with 0%Qc by ring. replace (0 * (qabs (y - x) * qabs (y - x)))%Qc with 0%Qc by ring. discriminate.
  - set (B := (qabs a + qabs b)%Qc). assert (0 <= B)%Qc as HB by (unfold B; pose proof (qabs_nonneg a); pose proof (qabs_nonneg b); qlra).
    destruct (poly_bounded (pder d) a b) as (N & HN & Hd). exists (B * M + N)%Qc. split. { assert (0 <= B * M)%Qc by now apply Qc_mul_nonneg. qlra. }
    intros x y H1 H2 H3 H4. cbn [peval pder]. rewrite peval_padd. cbn [peval].
    replace (s + y * peval d y - (s + x * peval d x) - (peval d x + (0 + x * peval (pder d) x)) * (y - x))%Qc
      with (y * (peval d y - peval d x - peval (pder d) x * (y - x)) + peval (pder d) x * ((y - x) * (y - x)))%Qc by ring.
    eapply Qcle_trans; [apply qabs_add|]. rewrite !qabs_mul. specialize (IH x y H1 H2 H3 H4). specialize (Hd x H1 H2). pose proof (interval_abs a b y H3 H4) as Hy. fold B in Hy.
    set (t := (qabs (y - x) * qabs (y - x))%Qc) in *. assert (0 <= t)%Qc as Ht by (apply Qc_mul_nonneg; apply qabs_nonneg).
    set (q := qabs (peval d y - _ - _)%Qc) in *. assert (0 <= q)%Qc as Hq by apply qabs_nonneg. set (w := qabs (peval (pder d) x)) in *. clearbody t q w.
    assert (qabs y * q <= B * (M * t))%Qc as G1.
    { eapply Qcle_trans; [apply Qcmult_le_compat_r; [exact Hy|exact Hq]|]. rewrite !(Qcmult_comm B). apply Qcmult_le_compat_r; auto. }
    assert (w * t <= N * t)%Qc as G2 by (apply Qcmult_le_compat_r; auto). replace ((B * M + N) * t)%Qc with (B * (M * t) + N * t)%Qc by ring. clear - G1 G2. qlra.
Qed.
Lemma poly_integral c a b : integral a b (peval c) (pdiff c a b).
Proof.
  exists (peval (antideriv c)). split; [reflexivity|]. intros e He. destruct (poly_taylor (antideriv c) a b) as (M & HM & T).
  assert (0 < M + 1)%Qc as HM1 by (clear - HM; qlra). exists (e / (M + 1))%Qc. split. { apply Qc_mul_pos; [exact He|now apply Qc_inv_pos]. }
  intros x y H1 H2 H3 H4 Hd. specialize (T x y H1 H2 H3 H4). rewrite pder_antideriv in T. eapply Qcle_trans; [exact T|].
  replace (M * (qabs (y - x) * qabs (y - x)))%Qc with (M * qabs (y - x) * qabs (y - x))%Qc by ring. apply Qcmult_le_compat_r; [|apply qabs_nonneg].
  set (t := qabs (y - x)) in *. assert (0 <= t)%Qc as Ht by apply qabs_nonneg. clearbody t. clear T.
  assert (t * (M + 1) <= e)%Qc as G.
  { apply Qclt_le_weak. assert (M + 1 <> 0)%Qc as Nz by (intros Z; rewrite Z in HM1; discriminate HM1). set (m := (M + 1)%Qc) in *. clearbody m. replace e with (e / m * m)%Qc by (field; auto). apply Qcmult_lt_compat_r; auto. }
  replace (M * t)%Qc with (t * (M + 1) - t)%Qc by ring. clear - G Ht. qlra.
Qed.

(** Integrals are unique. *)
Lemma archimedes x r : (0 < r)%Qc -> exists n, 0 < n /\ (x < inj n * r)%Qc.
Proof.
  intros Hr. set (q := (x / r)%Qc). set (n := S (Z.to_nat (Z.abs (Qnum (this q))))). exists n. split; [unfold n; lia|].
  assert (q < inj n)%Qc as H.
  { unfold Qclt, inj. cbn [this Q2Qc]. rewrite Qred_correct. unfold Qlt, inject_Z. cbn [Qnum Qden]. unfold n. nia. }
  replace x with (q * r)%Qc by (unfold q; field; intros Z; rewrite Z in Hr; discriminate Hr). now apply Qcmult_lt_compat_r.
Qed.
Lemma integral_unique a b f v w : (a <= b)%Qc -> integral a b f v -> integral a b f w -> v = w.
Proof.
  intros Hab (F & -> & HF) (G & -> & HG). set (D := fun x => (F x - G x)%Qc).
  assert (forall e, (0 < e)%Qc -> (qabs (D b - D a) <= e * (b - a))%Qc) as K.
  { intros e He. assert (0 < e * qc 1 2)%Qc as He2 by (apply Qc_mul_pos; auto; reflexivity).
    destruct (HF _ He2) as (r1 & Hr1 & H1). destruct (HG _ He2) as (r2 & Hr2 & H2). destruct (two_radii r1 r2 Hr1 Hr2) as (r & Hr & L1 & L2).
    destruct (archimedes (b - a)%Qc r Hr) as (n & Hn & A). assert (0 < inj n)%Qc as Pn by now apply inj_pos. set (h := ((b - a) / inj n)%Qc).
    assert (0 <= h)%Qc as Hh. { apply Qc_mul_nonneg; [qlra|]. apply Qclt_le_weak. now apply Qc_inv_pos. }
    assert (inj n * h = b - a)%Qc as Eh. { unfold h. field. intros Z. rewrite Z in Pn. discriminate Pn. }
    assert (h < r)%Qc as Lh. { destruct (Qclt_le_dec h r) as [X|X]; auto. exfalso. assert (inj n * r <= inj n * h)%Qc as Y by (rewrite !(Qcmult_comm (inj n)); apply Qcmult_le_compat_r; auto; now apply Qclt_le_weak). rewrite Eh in Y. clear - A Y. qlra. }
    assert (forall x y, (a <= x)%Qc -> (x <= b)%Qc -> (a <= y)%Qc -> (y <= b)%Qc -> (qabs (y - x) < r)%Qc -> (qabs (D y - D x) <= e * qabs (y - x))%Qc) as Step.
    { intros x y X1 X2 Y1 Y2 Hd. specialize (H1 x y X1 X2 Y1 Y2). specialize (H2 x y X1 X2 Y1 Y2).
      unfold D. replace (F y - G y - (F x - G x))%Qc with ((F y - F x - f x * (y - x)) + - (G y - G x - f x * (y - x)))%Qc by ring.
      eapply Qcle_trans; [apply qabs_add|]. rewrite qabs_opp.
      assert (qabs (y - x) < r1)%Qc as Q1 by (clear - Hd L1; qlra). assert (qabs (y - x) < r2)%Qc as Q2 by (clear - Hd L2; qlra). specialize (H1 Q1). specialize (H2 Q2).
      set (p := qabs (F y - _ - _)%Qc) in *. set (q := qabs (G y - _ - _)%Qc) in *. set (t := qabs (y - x)) in *. clearbody p q t.
      replace (e * t)%Qc with (e * qc 1 2 * t + e * qc 1 2 * t)%Qc; [clear - H1 H2; qlra|]. transitivity (e * (qc 1 2 + qc 1 2) * t)%Qc; [ring|]. replace (qc 1 2 + qc 1 2)%Qc with 1%Qc by (apply Qc_is_canon; reflexivity). ring. }
    assert (forall k, k <= n -> (qabs (D (a + inj k * h) - D a) <= e * (inj k * h))%Qc) as Ind.
    { induction k as [|k IH]; intros Hk.
      - change (inj 0) with 0%Qc. replace (a + 0 * h)%Qc with a by ring. replace (D a - D a)%Qc with 0%Qc by ring. replace (e * (0 * h))%Qc with 0%Qc by ring. discriminate.
      - specialize (IH ltac:(lia)). assert (a + inj (S k) * h = a + inj k * h + h)%Qc as E by (rewrite inj_S; ring).
        replace (D (a + inj (S k) * h) - D a)%Qc with ((D (a + inj (S k) * h) - D (a + inj k * h)) + (D (a + inj k * h) - D a))%Qc by ring.
        eapply Qcle_trans; [apply qabs_add|]. replace (e * (inj (S k) * h))%Qc with (e * h + e * (inj k * h))%Qc by (rewrite inj_S; ring).
        assert (forall m, m <= n -> (a <= a + inj m * h)%Qc /\ (a + inj m * h <= b)%Qc) as Rg.
        { intros m Hm. assert (0 <= inj m * h)%Qc by (apply Qc_mul_nonneg; auto; apply inj_nonneg). assert (inj m * h <= inj n * h)%Qc by (apply Qcmult_le_compat_r; auto; now apply inj_le). clear - H H0 Eh. qlra. }
        destruct (Rg k ltac:(lia)) as [R1 R2]. destruct (Rg (S k) Hk) as [R3 R4].
        assert (qabs (a + inj (S k) * h - (a + inj k * h)) = h)%Qc as Eq by (rewrite E; replace (a + inj k * h + h - (a + inj k * h))%Qc with h by ring; now apply qabs_pos_eq).
        specialize (Step _ _ R1 R2 R3 R4). rewrite Eq in Step. specialize (Step Lh). clear - Step IH. qlra. }
    specialize (Ind n (le_n n)). replace (a + inj n * h)%Qc with b in Ind by (rewrite Eh; ring). now rewrite Eh in Ind. }
  assert (D b - D a = 0)%Qc as Z.
  { apply qabs_le_0. destruct (Qclt_le_dec 0 (qabs (D b - D a))) as [L|L]; auto. exfalso. set (q := qabs (D b - D a)) in *. clearbody q D.
    assert (0 < b - a + 1)%Qc as P by (clear - Hab; qlra). specialize (K (q / (b - a + 1))%Qc).
    assert (q <= q / (b - a + 1) * (b - a))%Qc as K' by (apply K; apply Qc_mul_pos; auto; now apply Qc_inv_pos).
    set (i := (/ (b - a + 1))%Qc) in *. assert (0 < i)%Qc as Pi by now apply Qc_inv_pos.
    assert (i * (b - a + 1) = 1)%Qc as Ei by (unfold i; rewrite Qcmult_comm; apply Qcmult_inv_r; intros Z; rewrite Z in P; discriminate P).
    unfold Qcdiv in K'. fold i in K'. replace (q * i * (b - a))%Qc with (q * (i * (b - a + 1)) - q * i)%Qc in K' by ring. rewrite Ei in K'.
    assert (0 < q * i)%Qc as Q by now apply Qc_mul_pos. clear - K' Q. qlra. }
  unfold D in Z. assert (F b - F a - (G b - G a) = 0)%Qc as Z' by (rewrite <- Z; ring). clear - Z'. qlra.
Qed.
