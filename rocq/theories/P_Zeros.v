(** Zeros and sign changes of piecewise polynomials. *)
From Coq Require Import List Arith Lia QArith Qcanon Sorted.
From Verif Require Import Base BaseRadix BaseQc S_Spline S_Exact P_Deriv P_Poly.
Import ListNotations.
Local Open Scope list_scope.
Local Open Scope nat_scope.

(** * Polynomials between two points *)
Lemma exists_dec_seq (f : nat -> Qc) m : (exists k, k < m /\ (0 < f k)%Qc) \/ forall k, k < m -> (f k <= 0)%Qc.
Proof.
  induction m as [|m [(k & Hk & H)|IH]]; [right; lia|left; exists k; split; [lia|auto]|].
  destruct (Qclt_le_dec 0 (f m)) as [H|H]; [left; exists m; auto|]. right. intros k Hk. destruct (Nat.eq_dec k m) as [->|]; auto. apply IH. lia.
Qed.
Lemma rising c a b : (a < b)%Qc -> (peval c a < peval c b)%Qc -> exists y, (a < y)%Qc /\ (y < b)%Qc /\ (0 < peval (pder c) y)%Qc.
Proof.
  intros Hab HP. destruct (poly_taylor c a b) as (M & HM & T). destruct (poly_bounded (pder c) a b) as (N & HN & B).
  set (D := (peval c b - peval c a)%Qc). assert (0 < D)%Qc as HD by (unfold D; qlra).
  destruct (archimedes ((N + M * (b - a)) * (b - a))%Qc D HD) as (n & Hn & A). assert (0 < inj n)%Qc as Pn by now apply inj_pos.
  assert (inj n <> 0)%Qc as Nn by (intros Z; rewrite Z in Pn; discriminate Pn). set (h := ((b - a) / inj n)%Qc).
  assert (0 < h)%Qc as Hh by (apply Qc_mul_pos; [qlra|now apply Qc_inv_pos]). assert (inj n * h = b - a)%Qc as Eh by (unfold h; field; auto).
  assert ((N + M * (b - a)) * h < D)%Qc as A'.
  { destruct (Qclt_le_dec ((N + M * (b - a)) * h) D) as [X|X]; auto. exfalso. assert (inj n * D <= inj n * ((N + M * (b - a)) * h))%Qc as Y.
    { rewrite !(Qcmult_comm (inj n)). apply Qcmult_le_compat_r; auto. now apply Qclt_le_weak. }
    replace (inj n * ((N + M * (b - a)) * h))%Qc with ((N + M * (b - a)) * (inj n * h))%Qc in Y by ring. rewrite Eh in Y. clear - A Y. qlra. }
  assert (forall k, k <= n -> (a <= a + inj k * h)%Qc /\ (a + inj k * h <= b)%Qc) as Rg.
  { intros k Hk. assert (0 <= inj k * h)%Qc by (apply Qc_mul_nonneg; [apply inj_nonneg|now apply Qclt_le_weak]). assert (inj k * h <= inj n * h)%Qc by (apply Qcmult_le_compat_r; [now apply inj_le|now apply Qclt_le_weak]). rewrite Eh in H0. split; clear - H H0; qlra. }
  destruct (exists_dec_seq (fun k => peval (pder c) (a + inj (S k) * h)) (n - 1)) as [(k & Hk & H)|H].
  - exists (a + inj (S k) * h)%Qc. assert (0 < inj (S k) * h)%Qc by (apply Qc_mul_pos; auto; apply inj_pos; lia).
    assert (inj (S k) * h < inj n * h)%Qc by (apply Qcmult_lt_compat_r; auto; apply inj_lt; lia). rewrite Eh in *. split; [|split; auto]; clear - H0 H1; qlra.
  - exfalso. assert (forall k, 1 <= k -> k <= n -> (peval c (a + inj k * h) - peval c a <= N * h + M * (inj k * h * h))%Qc) as Ind.
    { induction k as [|k IH]; intros H1 H2; [lia|].
      destruct (Rg k) as [R1 R2]; [lia|]. destruct (Rg (S k)) as [R3 R4]; [lia|]. assert (a + inj (S k) * h - (a + inj k * h) = h)%Qc as E by (rewrite inj_S; ring).
      specialize (T _ _ R1 R2 R3 R4). rewrite E in T. rewrite (qabs_pos_eq h) in T by now apply Qclt_le_weak. pose proof (qabs_ge (peval c (a + inj (S k) * h) - peval c (a + inj k * h) - peval (pder c) (a + inj k * h) * h)) as G.
      set (q := qabs _) in *. clearbody q. set (P1 := peval c (a + inj (S k) * h)) in *. set (P0 := peval c (a + inj k * h)) in *. set (d := peval (pder c) (a + inj k * h)) in *.
      destruct (Nat.eq_dec k 0) as [->|Nk].
      - assert (P0 = peval c a) as E0 by (unfold P0; f_equal; change (inj 0) with 0%Qc; ring).
        assert (d * h <= N * h)%Qc as Bd. { apply Qcmult_le_compat_r; [|now apply Qclt_le_weak]. eapply Qcle_trans; [apply qabs_ge|]. unfold d. now apply B. }
        rewrite <- E0. change (inj 1) with 1%Qc. replace (M * (1 * h * h))%Qc with (M * (h * h))%Qc by ring. clearbody P0 P1 d. clear - T G Bd. qlra.
      - specialize (IH ltac:(lia) ltac:(lia)). assert (d <= 0)%Qc as Hd. { unfold d. replace (S (k - 1)) with k in * by lia. specialize (H (k - 1) ltac:(lia)). now replace (S (k - 1)) with k in H by lia. }
        assert (d * h <= 0)%Qc as Dh. { replace 0%Qc with (0 * h)%Qc by ring. apply Qcmult_le_compat_r; auto. now apply Qclt_le_weak. }
        replace (M * (inj (S k) * h * h))%Qc with (M * (inj k * h * h) + M * (h * h))%Qc by (rewrite inj_S; ring). clearbody P0 P1 d. clear - T G Dh IH. qlra. }
    specialize (Ind n ltac:(lia) (le_n n)). rewrite Eh in Ind. replace (a + (b - a))%Qc with b in Ind by ring.
    replace (N * h + M * ((b - a) * h))%Qc with ((N + M * (b - a)) * h)%Qc in Ind by ring. fold D in Ind. clear - Ind A'. qlra.
Qed.
Lemma rising_signed g c a b : (a < b)%Qc -> (0 < g * (peval c b - peval c a))%Qc -> exists y, (a < y)%Qc /\ (y < b)%Qc /\ (0 < g * peval (pder c) y)%Qc.
Proof.
  intros Hab H. destruct (rising (pscale g c) a b Hab) as (y & Y1 & Y2 & Y3).
  - rewrite !peval_pscale. replace (g * (peval c b - peval c a))%Qc with (g * peval c b - g * peval c a)%Qc in H by ring. qlra.
  - rewrite pder_pscale in Y3. exists y. auto.
Qed.
Lemma nonzero_point c a b : (a < b)%Qc -> (exists x, peval c x <> 0%Qc) -> exists w, (a < w)%Qc /\ (w < b)%Qc /\ peval c w <> 0%Qc.
Proof.
  intros Hab (x & Hx). set (n := length c). set (h := ((b - a) / inj (S n))%Qc).
  assert (0 < inj (S n))%Qc as Pn by (apply inj_pos; lia). assert (inj (S n) <> 0)%Qc as Nn by (intros Z; rewrite Z in Pn; discriminate Pn).
  assert (0 < h)%Qc as Hh by (apply Qc_mul_pos; [qlra|now apply Qc_inv_pos]). assert (inj (S n) * h = b - a)%Qc as Eh by (unfold h; field; auto).
  set (pt := fun k => (a + inj (S k) * h)%Qc).
  assert (forall k, k < n -> (a < pt k)%Qc /\ (pt k < b)%Qc) as Rg.
  { intros k Hk. assert (0 < inj (S k) * h)%Qc by (apply Qc_mul_pos; auto; apply inj_pos; lia). assert (inj (S k) * h < inj (S n) * h)%Qc by (apply Qcmult_lt_compat_r; auto; apply inj_lt; lia). rewrite Eh in *. unfold pt. split; clear - H H0; qlra. }
  assert ((exists k, k < n /\ peval c (pt k) <> 0%Qc) \/ forall k, k < n -> peval c (pt k) = 0%Qc) as [(k & Hk & H)|H].
  { generalize n. intros m. induction m as [|m [(k & Hk & H)|IH]]; [right; lia|left; exists k; split; [lia|auto]|].
    destruct (Qc_eq_dec (peval c (pt m)) 0) as [E|E]; [|left; exists m; auto]. right. intros k Hk. destruct (Nat.eq_dec k m) as [->|]; auto. apply IH. lia. }
  - exists (pt k). destruct (Rg k Hk). auto.
  - exfalso. apply Hx. apply peval_zero. apply (roots_zero n c (map pt (seq 0 n))); auto.
    + apply NoDup_map_inv_dom; [|apply seq_NoDup]. intros i j Hi Hj E. unfold pt in E. assert (inj (S i) * h = inj (S j) * h)%Qc as E' by (clear - E; qlra).
      assert (inj (S i) = inj (S j)) as E2. { transitivity (inj (S i) * h / h)%Qc; [field; intros Z; rewrite Z in Hh; discriminate Hh|]. rewrite E'. field. intros Z; rewrite Z in Hh; discriminate Hh. }
      apply inj_inj in E2. lia.
    + now rewrite map_length, seq_length.
    + intros y Hy. apply in_map_iff in Hy as (k & <- & Hk). apply in_seq in Hk. apply H. lia.
Qed.
Lemma pder_null c : (forall x, peval c x = 0%Qc) -> forall x, peval (pder c) x = 0%Qc.
Proof.
  intros H. apply same_coefficients in H. induction H as [|a c -> H IH]; intros x; [reflexivity|]. cbn [pder].
  rewrite peval_padd. rewrite (peval_zero c H). cbn [peval]. rewrite IH. ring.
Qed.
Lemma pder_ext c d : (forall x, peval c x = peval d x) -> forall x, peval (pder c) x = peval (pder d) x.
Proof.
  intros H x. assert (peval (pder c) x + - (1) * peval (pder d) x = 0)%Qc as Z; [|clear - Z; qlra].
  rewrite <- pder_pscale, <- pder_padd. apply pder_null. intros y. rewrite peval_padd, peval_pscale, H. ring.
Qed.
Lemma pder_short c : exists d, length d <= length c - 1 /\ forall x, peval (pder c) x = peval d x.
Proof.
  induction c as [|a c (d & Hd & E)]; [exists []; auto|]. cbn [pder length]. destruct c as [|b c].
  - exists []. split; [cbn; lia|]. intros x. cbn. ring.
  - exists (padd (b :: c) (0%Qc :: d)). split.
    + rewrite length_padd. cbn [length] in *. lia.
    + intros x. rewrite !peval_padd. cbn [peval]. rewrite E. reflexivity.
Qed.
Lemma pder_pol q c : pol (S q) (peval c) -> pol q (peval (pder c)).
Proof.
  intros (e & He & E). destruct (pder_short e) as (d & Hd & F). exists d. split; [lia|]. intros x. rewrite <- F. apply pder_ext. auto.
Qed.

(** * Contact of two polynomials at a point *)
Definition contact (k : nat) (z : Qc) (c d : list Qc) : Prop := exists g, forall x, (peval c x - peval d x = qpow (x - z) k * peval g x)%Qc.
Fixpoint ppow (z : Qc) (k : nat) : list Qc := match k with 0 => [1%Qc] | S k => pmul [- z; 1]%Qc (ppow z k) end.
Lemma peval_ppow z k x : peval (ppow z k) x = qpow (x - z) k.
Proof. induction k as [|k IH]; [cbn; ring|]. cbn [ppow qpow]. rewrite peval_pmul, IH. cbn. ring. Qed.
Lemma pder_ppow z k x : peval (pder (ppow z (S k))) x = (inj (S k) * qpow (x - z) k)%Qc.
Proof.
  induction k as [|k IH]; [cbn -[inj]; change (inj 1) with 1%Qc; ring|]. change (ppow z (S (S k))) with (pmul [- z; 1]%Qc (ppow z (S k))). rewrite pder_pmul, IH, peval_ppow.
  cbn [peval pder padd qpow]. rewrite (inj_S (S k)). ring.
Qed.
Lemma contact_0 z c d : contact 0 z c d.
Proof. exists (padd c (pscale (- (1)) d)). intros x. rewrite peval_padd, peval_pscale. cbn [qpow]. ring. Qed.
Lemma contact_at k z c d : contact (S k) z c d -> peval c z = peval d z.
Proof. intros (g & E). specialize (E z). cbn [qpow] in E. replace (z - z)%Qc with 0%Qc in E by ring. assert (peval c z - peval d z = 0)%Qc as Z by (rewrite E; ring). clear - Z. qlra. Qed.
Lemma contact_weaken k l z c d : k <= l -> contact l z c d -> contact k z c d.
Proof.
  intros H (g & E). exists (pmul (ppow z (l - k)) g). intros x. rewrite E, peval_pmul, peval_ppow. replace l with (k + (l - k)) at 1 by lia.
  generalize (l - k). clear. intros m. induction k as [|k IH]; cbn [qpow Nat.add]; [ring|]. rewrite <- !Qcmult_assoc, IH. ring.
Qed.
Lemma contact_pder k z c d : contact (S k) z c d -> contact k z (pder c) (pder d).
Proof.
  intros (g & E). exists (padd (pscale (inj (S k)) g) (pmul [- z; 1]%Qc (pder g))). intros x.
  assert (forall y, peval c y = peval (padd d (pmul (ppow z (S k)) g)) y) as F.
  { intros y. rewrite peval_padd, peval_pmul, peval_ppow, <- E. ring. }
  rewrite (pder_ext _ _ F), pder_padd, pder_pmul, pder_ppow, peval_ppow, peval_padd, peval_pscale, peval_pmul. cbn [qpow peval]. ring.
Qed.
Lemma contact_pder' k z c d : contact k z c d -> contact (k - 1) z (pder c) (pder d).
Proof. destruct k as [|k]; [intros; apply contact_0|]. cbn [Nat.sub]. rewrite Nat.sub_0_r. apply contact_pder. Qed.

(** * Pieces over the spans of a block *)
Definition pieces := nat -> list Qc.
Definition inside (z : nat -> Qc) (a b : nat) (p : nat * Qc) : Prop := a <= fst p /\ fst p < b /\ (z (fst p) <= snd p)%Qc /\ (snd p <= z (S (fst p)))%Qc.
Definition before (p p' : nat * Qc) : Prop := fst p <= fst p' /\ (snd p < snd p')%Qc.
Definition val (P : pieces) (p : nat * Qc) : Qc := peval (P (fst p)) (snd p).
Definition der_pieces (P : pieces) : pieces := fun c => pder (P c).
Definition joined (z : nat -> Qc) (P : pieces) (r : nat -> nat) a b : Prop := forall c, a < c -> c < b -> contact (r c) (z c) (P c) (P (c - 1)).
Fixpoint alt (f : nat * Qc -> Qc) (g : Qc) (l : list (nat * Qc)) : Prop :=
  match l with [] => True | p :: l => (0 < g * f p)%Qc /\ alt f (- g)%Qc l end.
Fixpoint zig (f : nat * Qc -> Qc) (g : Qc) (l : list (nat * Qc)) : Prop :=
  match l with p :: ((p' :: _) as t) => (0 < g * (f p' - f p))%Qc /\ zig f (- g)%Qc t | _ => True end.
Definition rising_knots (z : nat -> Qc) a b : Prop := forall c, a <= c -> c < b -> (z c < z (S c))%Qc.
Definition smooth_block (r : nat -> nat) a b : Prop := forall c, a < c -> c < b -> 0 < r c.
(** The dimension of the space of splines on the block. *)
Definition dimension (r : nat -> nat) q a b : nat := S q + list_sum (map (fun c => S q - r c) (seq (S a) (b - a - 1))).

Lemma knots_le z a b : rising_knots z a b -> forall i j, a <= i -> i <= j -> j <= b -> (z i <= z j)%Qc.
Proof.
  intros H i j Hi Hij Hj. induction j as [|j IH]; [replace i with 0 by lia; apply Qcle_refl|]. destruct (Nat.eq_dec i (S j)) as [->|]; [apply Qcle_refl|].
  eapply Qcle_trans; [apply IH; lia|]. apply Qclt_le_weak, H; lia.
Qed.
Lemma knots_lt z a b : rising_knots z a b -> forall i j, a <= i -> i < j -> j <= b -> (z i < z j)%Qc.
Proof. intros H i j Hi Hij Hj. eapply Qclt_le_trans; [apply H; lia|]. eapply knots_le; eauto. Qed.
Lemma before_trans p q r : before p q -> before q r -> before p r.
Proof. intros [A B] [C D]. split; [lia|]. eapply Qclt_trans; eauto. Qed.

Section Block.
Variable z : nat -> Qc.
Variables a b : nat.
Hypothesis up : rising_knots z a b.
Lemma gap (P : pieces) r g n : joined z P r a b -> smooth_block r a b -> forall p p', fst p' - fst p <= n -> inside z a b p -> inside z a b p' -> before p p' ->
  (0 < g * (val P p' - val P p))%Qc -> exists y, inside z a b y /\ before p y /\ before y p' /\ (0 < g * val (der_pieces P) y)%Qc.
Proof.
  intros J Sm. induction n as [|n IH]; intros [c x] [c' x'] Hn (A1 & A2 & A3 & A4) (B1 & B2 & B3 & B4) [O1 O2] H; cbn [fst snd] in *.
  all: destruct (Nat.eq_dec c c') as [<-|Ne]; [|try lia].
  1,2: unfold val in *; cbn [fst snd] in *; destruct (rising_signed g (P c) x x' O2 H) as (y & Y1 & Y2 & Y3); exists (c, y); unfold inside, before, der_pieces; cbn [fst snd];
    (repeat split; auto; apply Qclt_le_weak; [apply (Qcle_lt_trans _ x)|apply (Qclt_le_trans _ x')]; auto).
  assert (c' - 1 = pred c') as Ec by lia. destruct c' as [|k]; [lia|]. cbn [pred] in Ec.
  assert (peval (P (S k)) (z (S k)) = peval (P k) (z (S k))) as Ev. { specialize (J (S k) ltac:(lia) B2). specialize (Sm (S k) ltac:(lia) B2). destruct (r (S k)) as [|m]; [lia|]. apply contact_at in J. now replace (S k - 1) with k in J by lia. }
  unfold val in H. cbn [fst snd] in H.
  assert (x <= z (S k))%Qc as Hx. { eapply Qcle_trans; [exact A4|]. eapply knots_le; eauto; lia. }
  destruct (Qclt_le_dec 0 (g * (peval (P (S k)) x' - peval (P (S k)) (z (S k))))) as [H1|H1].
  - assert (z (S k) < x')%Qc as Hlt. { destruct (Qcle_lt_or_eq _ _ B3) as [X|X]; auto. exfalso. rewrite <- X in H1. replace (g * (peval (P (S k)) (z (S k)) - peval (P (S k)) (z (S k))))%Qc with 0%Qc in H1 by ring. discriminate H1. }
    destruct (rising_signed g (P (S k)) _ _ Hlt H1) as (y & Y1 & Y2 & Y3). exists (S k, y). unfold inside, before, val, der_pieces; cbn [fst snd]. repeat split; auto; try lia.
    + now apply Qclt_le_weak. + apply Qclt_le_weak. apply (Qclt_le_trans _ x'); auto. + eapply Qcle_lt_trans; eauto.
  - assert (0 < g * (peval (P k) (z (S k)) - peval (P c) x))%Qc as H2.
    { rewrite <- Ev. replace (g * (peval (P (S k)) x' - peval (P c) x))%Qc with (g * (peval (P (S k)) x' - peval (P (S k)) (z (S k))) + g * (peval (P (S k)) (z (S k)) - peval (P c) x))%Qc in H by ring. clear - H H1. qlra. }
    assert (x < z (S k))%Qc as Hlt. { destruct (Qcle_lt_or_eq _ _ Hx) as [X|X]; auto. exfalso. destruct (Nat.eq_dec c k) as [->|Nk].
      - rewrite X in H2. replace (g * (peval (P k) (z (S k)) - peval (P k) (z (S k))))%Qc with 0%Qc in H2 by ring. discriminate H2.
      - assert (z (S c) < z (S k))%Qc as L by (eapply knots_lt; eauto; lia). rewrite <- X in L. apply Qcle_not_lt in A4. contradiction. }
    destruct (IH (c, x) (k, z (S k))) as (y & Y1 & Y2 & Y3 & Y4); cbn [fst snd]; auto; try lia.
    + unfold inside; cbn; auto.
    + unfold inside; cbn. repeat split; try lia; [|apply Qcle_refl]. eapply knots_le; eauto; lia.
    + split; cbn; [lia|auto].
    + exists y. repeat split; try apply Y1; try apply Y2; auto.
      * destruct Y3. cbn in *. lia. * destruct Y3. cbn in *. eapply Qclt_le_trans; eauto.
Qed.
Lemma zig_gaps (P : pieces) r : joined z P r a b -> smooth_block r a b -> forall l g p, StronglySorted before (p :: l) -> Forall (inside z a b) (p :: l) -> zig (val P) g (p :: l) ->
  exists l', length l' = length l /\ StronglySorted before l' /\ Forall (inside z a b) l' /\ alt (val (der_pieces P)) g l' /\ Forall (before p) l'.
Proof.
  intros J Sm. induction l as [|p' l IH]; intros g p So Fo Zi; [exists []; repeat split; constructor|].
  inversion So as [|? ? So' Hp]; subst. inversion Fo as [|? ? Ip Fo']; subst. inversion Fo' as [|? ? Ip' _]; subst. inversion Hp as [|? ? B _]; subst. destruct Zi as [Z1 Z2].
  destruct (IH _ _ So' Fo' Z2) as (l' & L & S' & F' & A' & B'). destruct (gap P r g _ J Sm p p' (le_n _) Ip Ip' B Z1) as (y & Y1 & Y2 & Y3 & Y4).
  exists (y :: l'). split; [|split; [|split; [|split]]].
  - cbn. now rewrite L.
  - constructor; auto. eapply Forall_impl; [|exact B']. intros w Hw. apply (before_trans _ p'); auto.
  - now constructor.
  - now split.
  - constructor; auto. eapply Forall_impl; [|exact B']. intros w Hw. apply (before_trans _ p'); auto.
Qed.
End Block.
Lemma alt_zig f l : forall g, alt f g l -> zig f (- g)%Qc l.
Proof.
  induction l as [|p [|p' l] IH]; intros g H; auto; try exact I. destruct H as [H1 H2]. split; [|now apply IH].
  destruct H2 as [H2 _]. replace (- g * (f p' - f p))%Qc with (g * f p + - g * f p')%Qc by ring. clear - H1 H2. qlra.
Qed.
Lemma alt_app f l1 : forall g l2, alt f g (l1 ++ l2) -> alt f g l1 /\ exists g', alt f g' l2.
Proof.
  induction l1 as [|p l1 IH]; intros g l2 H; [split; [exact I|exists g; exact H]|]. destruct H as [H1 H2]. apply IH in H2 as [H2 H3]. repeat split; auto.
Qed.
Lemma zig_snoc f l p : forall g, l <> [] -> alt f g l -> f p = 0%Qc -> zig f (- g)%Qc (l ++ [p]).
Proof.
  induction l as [|p1 [|p2 l] IH]; intros g N H E; [congruence| |].
  - cbn. destruct H as [H _]. split; auto. rewrite E. replace (- g * (0 - f p1))%Qc with (g * f p1)%Qc by ring. auto.
  - destruct H as [H1 H2]. cbn [app zig]. split; [|apply IH; auto; discriminate]. destruct H2 as [H2 _]. replace (- g * (f p2 - f p1))%Qc with (g * f p1 + - g * f p2)%Qc by ring. clear - H1 H2. qlra.
Qed.
Lemma zig_cons f p l g : alt f g l -> f p = 0%Qc -> zig f (- g)%Qc l -> zig f g (p :: l).
Proof. intros H E Z. destruct l as [|p1 l]; [exact I|]. split; auto. destruct H as [H _]. rewrite E. now replace (g * (f p1 - 0))%Qc with (g * f p1)%Qc by ring. Qed.
Lemma zig_cons2 f p l q g : l <> [] -> alt f g l -> f p = 0%Qc -> f q = 0%Qc -> zig f g (p :: l ++ [q]).
Proof.
  intros N H E F. pose proof (zig_snoc f l q g N H F) as Z. destruct l as [|p1 l]; [congruence|]. cbn [app] in *. split; auto. destruct H as [H _]. rewrite E. now replace (g * (f p1 - 0))%Qc with (g * f p1)%Qc by ring.
Qed.

Lemma jump_dec (r : nat -> nat) a b : (exists c, a < c /\ c < b /\ r c = 0) \/ smooth_block r a b.
Proof.
  unfold smooth_block. induction b as [|b [(c & H1 & H2 & H3)|IH]]; [right; lia|left; exists c; auto|]. destruct (le_lt_dec b a) as [L|L]; [right; lia|].
  destruct (Nat.eq_dec (r b) 0) as [E|E]; [left; exists b; auto|]. right. intros c H1 H2. destruct (Nat.eq_dec c b) as [->|]; [lia|]. apply IH; lia.
Qed.
Lemma dimension_split r q a b c : a < c -> c < b -> r c = 0 -> dimension r q a b = dimension r q a c + dimension r q c b.
Proof.
  intros H1 H2 H. unfold dimension. replace (b - a - 1) with ((c - a - 1) + S (b - c - 1)) by lia. rewrite seq_app, map_app, list_sum_app. cbn [seq map]. replace (S a + (c - a - 1)) with c by lia.
  rewrite H. cbn [list_sum fold_right]. fold (list_sum (map (fun c0 => S q - r c0) (seq (S c) (b - c - 1)))). lia.
Qed.
Lemma dimension_der r q a b : smooth_block r a b -> dimension r (S q) a b = S (dimension (fun c => r c - 1) q a b).
Proof.
  intros H. unfold dimension. cbn [Nat.add]. f_equal. f_equal. f_equal. f_equal. apply map_ext_in. intros c Hc. apply in_seq in Hc. specialize (H c ltac:(lia) ltac:(lia)). lia.
Qed.
Lemma split_before (l : list (nat * Qc)) c : StronglySorted before l -> exists l1 l2, l = l1 ++ l2 /\ StronglySorted before l1 /\ StronglySorted before l2 /\ Forall (fun p => fst p < c) l1 /\ Forall (fun p => c <= fst p) l2.
Proof.
  induction l as [|p l IH]; intros H; [exists [], []; repeat split; constructor|]. inversion H as [|? ? S' F]; subst. destruct (le_lt_dec c (fst p)) as [L|L].
  - exists [], (p :: l). repeat split; auto; try constructor; auto. eapply Forall_impl; [|exact F]. intros w [Hw _]. lia.
  - destruct (IH S') as (l1 & l2 & -> & S1 & S2 & F1 & F2). exists (p :: l1), l2. repeat split; auto. constructor; auto. now apply Forall_app in F as [F _].
Qed.
Lemma joined_part z P r a b a' b' : a <= a' -> b' <= b -> joined z P r a b -> joined z P r a' b'.
Proof. intros H1 H2 J c H3 H4. apply J; lia. Qed.
Lemma rising_part z a b a' b' : a <= a' -> b' <= b -> rising_knots z a b -> rising_knots z a' b'.
Proof. intros H1 H2 J c H3 H4. apply J; lia. Qed.
Lemma inside_part z a b c d l : Forall (inside z a b) l -> Forall (fun p => c <= fst p /\ fst p < d) l -> Forall (inside z c d) l.
Proof. intros H1 H2. rewrite Forall_forall in *. intros p Hp. destruct (H1 p Hp) as (A & B & C & D). destruct (H2 p Hp). repeat split; auto. Qed.
Lemma sorted_snoc l q : StronglySorted before l -> Forall (fun p => before p q) l -> StronglySorted before (l ++ [q]).
Proof.
  induction l as [|p l IH]; intros H F; [repeat constructor|]. inversion H; subst. inversion F; subst. cbn. constructor; auto. apply Forall_app. split; auto.
Qed.
Definition nonzero (c : list Qc) : Prop := exists x, peval c x <> 0%Qc.
Lemma nonzero_dec c : nonzero c \/ forall x, peval c x = 0%Qc.
Proof.
  assert (Exists (fun a => a <> 0%Qc) c \/ Forall (fun a => a = 0%Qc) c) as [H|H].
  { induction c as [|a c [IH|IH]]; [right; constructor|left; now right|]. destruct (Qc_eq_dec a 0) as [->|N]; [right; now constructor|left; now left]. }
  - left. assert (~ forall x, peval c x = 0%Qc) as N. { intros Z. apply same_coefficients in Z. rewrite Exists_exists in H. destruct H as (a & Ha & Na). rewrite Forall_forall in Z. now apply Na, Z. }
    assert ((exists k, k < length c /\ peval c (inj k) <> 0%Qc) \/ forall k, k < length c -> peval c (inj k) = 0%Qc) as [(k & _ & Hk)|A].
    { generalize (length c). intros m. induction m as [|m [(k & Hk & H')|IH]]; [right; lia|left; exists k; split; [lia|auto]|].
      destruct (Qc_eq_dec (peval c (inj m)) 0) as [E|E]; [|left; exists m; auto]. right. intros k Hk. destruct (Nat.eq_dec k m) as [->|]; auto. apply IH. lia. }
    + now exists (inj k).
    + exfalso. apply N. apply peval_zero. apply (roots_zero (length c) c (map inj (seq 0 (length c)))); auto.
      * apply NoDup_map_inv_dom; [|apply seq_NoDup]. intros i j _ _ E. now apply inj_inj.
      * now rewrite map_length, seq_length.
      * intros y Hy. apply in_map_iff in Hy as (k & <- & Hk). apply in_seq in Hk. apply A. lia.
  - right. now apply peval_zero.
Qed.
Lemma alt_nonzero f l : forall g, alt f g l -> Forall (fun p => f p <> 0%Qc) l.
Proof.
  induction l as [|p l IH]; intros g H; constructor; destruct H as [H1 H2]; eauto. intros Z. rewrite Z in H1. replace (g * 0)%Qc with 0%Qc in H1 by ring. discriminate H1.
Qed.
Lemma after_start z P a b l : rising_knots z a b -> peval (P a) (z a) = 0%Qc -> Forall (inside z a b) l -> Forall (fun p => val P p <> 0%Qc) l -> Forall (before (a, z a)) l.
Proof.
  intros R E I N. rewrite Forall_forall in *. intros p Hp. destruct (I p Hp) as (A & B & C & D). split; [exact A|]. cbn [fst snd].
  destruct (Nat.eq_dec (fst p) a) as [Ea|Ea].
  - rewrite Ea in C. destruct (Qcle_lt_or_eq _ _ C) as [X|X]; auto. exfalso. apply (N p Hp). unfold val. now rewrite Ea, <- X.
  - eapply Qclt_le_trans; [|exact C]. eapply knots_lt; eauto; lia.
Qed.
Lemma before_end z P a b l : rising_knots z a b -> peval (P (b - 1)) (z b) = 0%Qc -> Forall (inside z a b) l -> Forall (fun p => val P p <> 0%Qc) l -> Forall (fun p => before p (b - 1, z b)) l.
Proof.
  intros R E I N. rewrite Forall_forall in *. intros p Hp. destruct (I p Hp) as (A & B & C & D). split; cbn [fst snd]; [lia|].
  destruct (Nat.eq_dec (fst p) (b - 1)) as [Ea|Ea].
  - rewrite Ea in D. replace (S (b - 1)) with b in D by lia. destruct (Qcle_lt_or_eq _ _ D) as [X|X]; auto. exfalso. apply (N p Hp). unfold val. now rewrite Ea, X.
  - eapply Qcle_lt_trans; [exact D|]. eapply knots_lt; eauto; lia.
Qed.
Lemma inside_start z a b : a < b -> rising_knots z a b -> inside z a b (a, z a).
Proof. intros H R. repeat split; cbn; auto; [apply Qcle_refl|]. apply Qclt_le_weak, R; auto. Qed.
Lemma inside_end z a b : a < b -> rising_knots z a b -> inside z a b (b - 1, z b).
Proof. intros H R. repeat split; cbn; try lia. - eapply knots_le; eauto; lia. - replace (S (b - 1)) with b by lia. apply Qcle_refl. Qed.
Lemma nonzero_pder c x : nonzero c -> peval c x = 0%Qc -> nonzero (pder c).
Proof. intros (y & Hy) E. destruct (nonzero_dec (pder c)) as [N|N]; auto. exfalso. apply Hy. rewrite <- E. now apply pder_zero. Qed.
Lemma contact_zero k z c : 0 < k -> contact k z c [] -> peval c z = 0%Qc.
Proof. intros H C. destruct k; [lia|]. now apply contact_at in C. Qed.
Lemma constants z P r a b : joined z P r a b -> smooth_block r a b -> (forall c, a <= c -> c < b -> pol 0 (peval (P c))) -> exists K, forall c x, a <= c -> c < b -> peval (P c) x = K.
Proof.
  intros J Sm HP. exists (peval (P a) 0). assert (forall c x y, a <= c -> c < b -> peval (P c) x = peval (P c) y) as C.
  { intros c x y H1 H2. destruct (HP c H1 H2) as (d & Hd & E). rewrite !E. destruct d as [|e [|e' d]]; cbn in *; try lia; ring. }
  induction c as [|c IH]; intros x H1 H2; [replace a with 0 by lia; apply C; lia|]. destruct (Nat.eq_dec a (S c)) as [->|N]; [apply C; lia|].
  specialize (J (S c) ltac:(lia) H2). specialize (Sm (S c) ltac:(lia) H2). destruct (r (S c)) as [|m]; [lia|]. apply contact_at in J. replace (S c - 1) with c in J by lia.
  rewrite (C _ x (z (S c)) H1 H2), J. apply IH; lia.
Qed.
Lemma square_pos x : x <> 0%Qc -> (0 < x * x)%Qc.
Proof.
  intros N. destruct (Qclt_le_dec 0 x) as [H|H]; [now apply Qc_mul_pos|]. replace (x * x)%Qc with ((- x) * (- x))%Qc by ring. assert (0 < - x)%Qc; [|now apply Qc_mul_pos].
  destruct (Qcle_lt_or_eq _ _ H) as [X|X]; [|congruence]. clear - X. qlra.
Qed.

(** * Sign changes *)
Theorem alternations q : forall n a b P r ea eb z g l, b - a <= n -> a < b -> rising_knots z a b -> (forall c, a <= c -> c < b -> pol q (peval (P c))) -> joined z P r a b ->
  contact ea (z a) (P a) [] -> contact eb (z b) (P (b - 1)) [] -> (0 < ea -> nonzero (P a)) -> (0 < eb -> nonzero (P (b - 1))) ->
  StronglySorted before l -> Forall (inside z a b) l -> alt (val P) g l -> length l + ea + eb <= dimension r q a b.
Proof.
  induction q as [|q IHq]; induction n as [|n IHn]; intros a b P r ea eb z g l Hn Hab Up HP J Ca Cb Na Nb So In Al; try lia.
  all: destruct (jump_dec r a b) as [(c & C1 & C2 & C3)|Sm].
  (* a jump *)
  1,3: destruct (split_before l c So) as (l1 & l2 & -> & S1 & S2 & F1 & F2); apply alt_app in Al as [Al1 (g' & Al2)]; apply Forall_app in In as [In1 In2];
    rewrite (dimension_split r _ a b c C1 C2 C3), app_length;
    assert (length l1 + ea + 0 <= dimension r _ a c) as X1 by (apply (IHn a c P r ea 0 z g l1); auto;
      [lia|eapply rising_part; [apply le_n| |exact Up]; lia|intros; apply HP; lia|eapply joined_part; [apply le_n| |exact J]; lia|apply contact_0|lia|
       apply (inside_part z a b); auto; rewrite Forall_forall in *; intros p Hp; split; [apply (In1 p Hp)|auto]]);
    assert (length l2 + 0 + eb <= dimension r _ c b) as X2 by (apply (IHn c b P r 0 eb z g' l2); auto;
      [lia|eapply rising_part; [| |exact Up]; lia|intros; apply HP; lia|eapply joined_part; [| |exact J]; lia|apply contact_0|lia|
       apply (inside_part z a b); auto; rewrite Forall_forall in *; intros p Hp; split; [auto|apply (In2 p Hp)]]); lia.
  - (* constants *)
    destruct (constants z P r a b J Sm HP) as (K & HK).
    assert (ea = 0) as ->. { destruct ea; auto. exfalso. apply contact_zero in Ca; [|lia]. destruct (Na ltac:(lia)) as (x & Hx). apply Hx. rewrite HK by lia. rewrite <- (HK a (z a)); auto. }
    assert (eb = 0) as ->. { destruct eb; auto. exfalso. apply contact_zero in Cb; [|lia]. destruct (Nb ltac:(lia)) as (x & Hx). apply Hx. rewrite HK by lia. rewrite <- (HK (b - 1) (z b)); auto; lia. }
    unfold dimension. assert (length l <= 1); [|lia]. destruct l as [|p [|p' l]]; cbn; try lia. exfalso. destruct Al as (A1 & A2 & _).
    inversion In as [|? ? I1 In']; subst. inversion In' as [|? ? I2 _]; subst. destruct I1 as (X1 & X2 & _). destruct I2 as (Y1 & Y2 & _). unfold val in *. rewrite HK in A1, A2 by auto.
    replace (- g * K)%Qc with (- (g * K))%Qc in A2 by ring. clear - A1 A2. qlra.
  - (* the derivative *)
    assert (forall l g, l <> [] -> StronglySorted before l -> Forall (inside z a b) l -> alt (val P) g l -> length l + ea + eb <= dimension r (S q) a b) as Main.
    { clear l g So In Al. intros l g Nl So In Al. rewrite (dimension_der r q a b Sm). pose proof (alt_nonzero _ _ _ Al) as Nz.
      assert (forall g' l', StronglySorted before l' -> Forall (inside z a b) l' -> alt (val (der_pieces P)) g' l' -> length l' + (ea - 1) + (eb - 1) <= dimension (fun c => r c - 1) q a b) as D.
      { intros g' l' S' I' A'. apply (IHq (b - a) a b (der_pieces P) (fun c => r c - 1) (ea - 1) (eb - 1) z g' l'); auto.
        - intros c H1 H2. apply pder_pol. auto.
        - intros c H1 H2. apply contact_pder'. auto.
        - apply (contact_pder' ea (z a) (P a) []). auto.
        - apply (contact_pder' eb (z b) (P (b - 1)) []). auto.
        - intros H. apply (nonzero_pder _ (z a)); [apply Na; lia|]. apply (contact_zero ea); auto; lia.
        - intros H. apply (nonzero_pder _ (z b)); [apply Nb; lia|]. apply (contact_zero eb); auto; lia. }
      assert (0 < ea -> Forall (before (a, z a)) l) as Ba. { intros H. apply (after_start z P a b); auto. apply (contact_zero ea); auto. }
      assert (0 < eb -> Forall (fun p => before p (b - 1, z b)) l) as Bb. { intros H. apply (before_end z P a b); auto. apply (contact_zero eb); auto. }
      assert (0 < ea -> val P (a, z a) = 0%Qc) as Va by (intros H; apply (contact_zero ea); auto). assert (0 < eb -> val P (b - 1, z b) = 0%Qc) as Vb by (intros H; apply (contact_zero eb); auto).
      pose proof (inside_start z a b Hab Up) as Ia. pose proof (inside_end z a b Hab Up) as Ib.
      destruct (Nat.eq_dec ea 0) as [->|Ea]; destruct (Nat.eq_dec eb 0) as [->|Eb].
      - destruct l as [|p l]; [congruence|]. destruct (zig_gaps z a b Up P r J Sm l (- g)%Qc p So In (alt_zig _ _ _ Al)) as (l' & L & S' & I' & A' & _). specialize (D _ _ S' I' A'). cbn [length]. lia.
      - pose proof (zig_snoc _ l _ g Nl Al (Vb ltac:(lia))) as Z. pose proof (sorted_snoc l (b - 1, z b) So (Bb ltac:(lia))) as S2.
        assert (Forall (inside z a b) (l ++ [(b - 1, z b)])) as I2 by (apply Forall_app; auto).
        destruct l as [|p l]; [congruence|]. destruct (zig_gaps z a b Up P r J Sm (l ++ [(b - 1, z b)]) (- g)%Qc p S2 I2 Z) as (l' & L & S' & I' & A' & _). specialize (D _ _ S' I' A'). rewrite app_length in L. cbn [length] in *. lia.
      - pose proof (zig_cons _ (a, z a) l g Al (Va ltac:(lia)) (alt_zig _ _ _ Al)) as Z.
        destruct (zig_gaps z a b Up P r J Sm l g (a, z a)) as (l' & L & S' & I' & A' & _); auto; [constructor; auto; apply Ba; lia|]. specialize (D _ _ S' I' A'). lia.
      - pose proof (zig_cons2 _ (a, z a) l (b - 1, z b) g Nl Al (Va ltac:(lia)) (Vb ltac:(lia))) as Z.
        destruct (zig_gaps z a b Up P r J Sm (l ++ [(b - 1, z b)]) g (a, z a)) as (l' & L & S' & I' & A' & _); auto.
        + constructor; [apply sorted_snoc; auto; apply Bb; lia|]. apply Forall_app. split; [apply Ba; lia|]. constructor; auto. destruct l as [|p l]; [congruence|].
          specialize (Ba ltac:(lia)). specialize (Bb ltac:(lia)). inversion Ba; subst. inversion Bb; subst. apply (before_trans _ p); auto.
        + constructor; auto. apply Forall_app; auto.
        + specialize (D _ _ S' I' A'). rewrite app_length in L. cbn [length] in L. lia. }
    destruct l as [|p l]; [|apply (Main (p :: l) g); auto; discriminate]. destruct (Nat.eq_dec ea 0) as [->|Ea]; [destruct (Nat.eq_dec eb 0) as [->|Eb]|].
    + cbn. lia.
    + destruct (nonzero_point (P (b - 1)) (z (b - 1)) (z b)) as (w & W1 & W2 & W3). { replace (z b) with (z (S (b - 1))) by (f_equal; lia). apply Up; lia. } { apply Nb; lia. }
      specialize (Main [(b - 1, w)] (peval (P (b - 1)) w)). cbn [length] in *. assert (1 + 0 + eb <= dimension r (S q) a b); [|lia]. apply Main; [discriminate|repeat constructor| |].
      * constructor; auto. repeat split; cbn; try lia; apply Qclt_le_weak; auto. now replace (S (b - 1)) with b by lia.
      * split; [|exact I]. now apply square_pos.
    + destruct (nonzero_point (P a) (z a) (z (S a))) as (w & W1 & W2 & W3). { apply Up; lia. } { apply Na; lia. }
      specialize (Main [(a, w)] (peval (P a) w)). cbn [length] in *. assert (1 + ea + eb <= dimension r (S q) a b); [|lia]. apply Main; [discriminate|repeat constructor| |].
      * constructor; auto. repeat split; cbn; try lia; apply Qclt_le_weak; auto.
      * split; [|exact I]. now apply square_pos.
Qed.

(** * Zeros *)
Lemma between_nonzero z a b P p p' : rising_knots z a b -> (forall c, a <= c -> c < b -> nonzero (P c)) -> inside z a b p -> inside z a b p' -> before p p' ->
  exists w, inside z a b w /\ before p w /\ before w p' /\ val P w <> 0%Qc.
Proof.
  intros Up NZ. destruct p as [c x], p' as [c' x']. intros (A1 & A2 & A3 & A4) (B1 & B2 & B3 & B4) [O1 O2]. cbn [fst snd] in *.
  assert (forall k lo, c <= k -> k <= c' -> (x <= lo)%Qc -> (z k <= lo)%Qc -> (lo < z (S k))%Qc -> (lo < x')%Qc -> exists w, inside z a b w /\ before (c, x) w /\ before w (c', x') /\ val P w <> 0%Qc) as Gen.
  { intros k lo K1 K2 H1 H2 H3 H4.
    assert (exists hi, (lo < hi)%Qc /\ (hi <= z (S k))%Qc /\ (hi <= x')%Qc) as (hi & Hi1 & Hi2 & Hi3).
    { destruct (Qclt_le_dec x' (z (S k))) as [X|X]; [exists x'|exists (z (S k))]; repeat split; auto; try apply Qcle_refl. now apply Qclt_le_weak. }
    destruct (nonzero_point (P k) lo hi Hi1) as (w & W1 & W2 & W3); [apply NZ; lia|]. exists (k, w). unfold inside, before, val. cbn [fst snd].
    assert (lo <= w)%Qc by now apply Qclt_le_weak. assert (w <= hi)%Qc by now apply Qclt_le_weak. repeat split; auto; try lia.
    - apply (Qcle_trans _ lo); auto. - apply (Qcle_trans _ hi); auto. - apply (Qcle_lt_trans _ lo); auto. - apply (Qclt_le_trans _ hi); auto. }
  destruct (Qcle_lt_or_eq _ _ A4) as [X|X].
  - apply (Gen c x); auto. apply Qcle_refl.
  - assert (c <> c') as Nc. { intros ->. rewrite <- X in B4. apply Qcle_not_lt in B4. contradiction. }
    apply (Gen (S c) x); auto; try lia; try apply Qcle_refl. + rewrite X. apply Qcle_refl. + rewrite X. apply Up; lia.
Qed.
Lemma pick_sign s g A B : g <> 0%Qc -> (0 < s * A)%Qc -> (0 < - s * B)%Qc -> (0 < - g * A)%Qc \/ (0 < - g * B)%Qc.
Proof.
  intros Hg HA HB. assert (s <> 0)%Qc as Ns. { intros ->. replace (0 * A)%Qc with 0%Qc in HA by ring. discriminate HA. }
  assert (s * g <> 0)%Qc as Nsg. { intros Z. apply Qcmult_integral in Z as [Z|Z]; auto. }
  assert (forall X Y : Qc, (0 < X * Y)%Qc -> (0 < X * Y * (g * g))%Qc) as Sq. { intros X Y H. apply Qc_mul_pos; auto. now apply square_pos. }
  destruct (Qclt_le_dec (s * g) 0) as [L|L].
  - left. destruct (Qclt_le_dec 0 (- g * A)) as [X|X]; auto. exfalso.
    assert (0 <= (- (s * g)) * (g * A))%Qc as Y by (apply Qc_mul_nonneg; clear - L X; qlra). specialize (Sq _ _ HA).
    replace (- (s * g) * (g * A))%Qc with (- (s * A * (g * g)))%Qc in Y by ring. clear - Y Sq. qlra.
  - right. destruct (Qclt_le_dec 0 (- g * B)) as [X|X]; auto. exfalso.
    assert (0 <= (s * g) * (g * B))%Qc as Y by (apply Qc_mul_nonneg; clear - L X; qlra). specialize (Sq _ _ HB).
    replace (s * g * (g * B))%Qc with (- (- s * B * (g * g)))%Qc in Y by ring. clear - Y Sq. qlra.
Qed.
Lemma zero_gap z a b P r p p' : rising_knots z a b -> joined z P r a b -> smooth_block r a b -> (forall c, a <= c -> c < b -> nonzero (P c)) -> inside z a b p -> inside z a b p' -> before p p' ->
  val P p = 0%Qc -> val P p' = 0%Qc -> exists s y1 y2, inside z a b y1 /\ inside z a b y2 /\ before p y1 /\ before y1 y2 /\ before y2 p' /\
    (0 < s * val (der_pieces P) y1)%Qc /\ (0 < - s * val (der_pieces P) y2)%Qc.
Proof.
  intros Up J Sm NZ I1 I2 B V1 V2. destruct (between_nonzero z a b P p p' Up NZ I1 I2 B) as (w & W1 & W2 & W3 & W4). apply square_pos in W4. set (s := val P w) in *.
  destruct (gap z a b Up P r s _ J Sm p w (le_n _) I1 W1 W2) as (y1 & Y1 & Y2 & Y3 & Y4). { fold s. rewrite V1. now replace (s * (s - 0))%Qc with (s * s)%Qc by ring. }
  destruct (gap z a b Up P r (- s)%Qc _ J Sm w p' (le_n _) W1 I2 W3) as (y2 & Z1 & Z2 & Z3 & Z4). { fold s. rewrite V2. now replace (- s * (0 - s))%Qc with (s * s)%Qc by ring. }
  exists s, y1, y2. split; [|split; [|split; [|split; [|split; [|split]]]]]; auto. now apply (before_trans _ w).
Qed.
Lemma zero_alt z a b P r : rising_knots z a b -> joined z P r a b -> smooth_block r a b -> (forall c, a <= c -> c < b -> nonzero (P c)) ->
  forall l p, l <> [] -> StronglySorted before (p :: l) -> Forall (inside z a b) (p :: l) -> Forall (fun p => val P p = 0%Qc) (p :: l) ->
  exists g l', length l' = S (length l) /\ g <> 0%Qc /\ StronglySorted before l' /\ Forall (inside z a b) l' /\ alt (val (der_pieces P)) g l' /\ Forall (before p) l'.
Proof.
  intros Up J Sm NZ. induction l as [|p' l IH]; intros p Nl So In Va; [congruence|].
  inversion So as [|? ? So' Hp]; subst. inversion Hp as [|? ? B _]; subst. inversion In as [|? ? Ip In']; subst. inversion In' as [|? ? Ip' _]; subst. inversion Va as [|? ? Vp Va']; subst. inversion Va' as [|? ? Vp' _]; subst.
  destruct (zero_gap z a b P r p p' Up J Sm NZ Ip Ip' B Vp Vp') as (s & y1 & y2 & Y1 & Y2 & Y3 & Y4 & Y5 & Y6 & Y7).
  destruct l as [|p2 l].
  - exists s, [y1; y2]. split; [reflexivity|]. split. { intros ->. replace (0 * val (der_pieces P) y1)%Qc with 0%Qc in Y6 by ring. discriminate Y6. }
    split; [|split; [auto|split; [cbn; auto|]]].
    + constructor; [|now constructor]. constructor; constructor.
    + constructor; auto. constructor; auto. apply (before_trans _ _ _ Y3 Y4).
  - destruct (IH p' ltac:(discriminate) So' In' Va') as (g & l' & L & Ng & S' & I' & A' & B').
    assert (exists y, inside z a b y /\ before p y /\ before y p' /\ (0 < - g * val (der_pieces P) y)%Qc) as (y & Q1 & Q2 & Q3 & Q4).
    { destruct (pick_sign _ _ _ _ Ng Y6 Y7) as [X|X]; [exists y1|exists y2]. - repeat split; try apply Y1; try apply Y3; auto; apply (before_trans _ _ _ Y4 Y5). - repeat split; try apply Y2; try apply Y5; auto; apply (before_trans _ _ _ Y3 Y4). }
    exists (- g)%Qc, (y :: l'). split; [cbn [length] in *; lia|]. split. { intros Z. apply Ng. replace g with (- - g)%Qc by ring. rewrite Z. ring. }
    split; [|split; [|split]].
    + constructor; auto. eapply Forall_impl; [|exact B']. intros w Hw. apply (before_trans _ p'); auto.
    + now constructor.
    + split; auto. now replace (- - g)%Qc with g by ring.
    + constructor; auto. eapply Forall_impl; [|exact B']. intros w Hw. apply (before_trans _ p'); auto.
Qed.
Lemma zero_alt1 z a b P r p : rising_knots z a b -> joined z P r a b -> smooth_block r a b -> (forall c, a <= c -> c < b -> nonzero (P c)) -> inside z a b p -> val P p = 0%Qc ->
  exists g y, inside z a b y /\ (0 < g * val (der_pieces P) y)%Qc.
Proof.
  intros Up J Sm NZ Ip Vp. destruct p as [c x]. pose proof Ip as (A1 & A2 & A3 & A4). cbn [fst snd] in *.
  destruct (nonzero_point (P c) (z c) (z (S c))) as (w & W1 & W2 & W3); [apply Up; auto|now apply NZ|].
  assert (inside z a b (c, w)) as Iw by (repeat split; cbn; auto; now apply Qclt_le_weak). pose proof (square_pos _ W3) as Sq. unfold val in Vp. cbn [fst snd] in Vp.
  destruct (Qclt_le_dec x w) as [X|X].
  - destruct (gap z a b Up P r (peval (P c) w) _ J Sm (c, x) (c, w) (le_n _) Ip Iw) as (y & Y1 & _ & _ & Y4); [split; cbn; auto| |eauto].
    unfold val. cbn [fst snd]. rewrite Vp. now replace (peval (P c) w * (peval (P c) w - 0))%Qc with (peval (P c) w * peval (P c) w)%Qc by ring.
  - assert (w < x)%Qc as X'. { destruct (Qcle_lt_or_eq _ _ X) as [L|L]; auto. congruence. }
    destruct (gap z a b Up P r (- peval (P c) w)%Qc _ J Sm (c, w) (c, x) (le_n _) Iw Ip) as (y & Y1 & _ & _ & Y4); [split; cbn; auto| |eauto].
    unfold val. cbn [fst snd]. rewrite Vp. now replace (- peval (P c) w * (0 - peval (P c) w))%Qc with (peval (P c) w * peval (P c) w)%Qc by ring.
Qed.
Lemma zeros_alt z a b P r l : rising_knots z a b -> joined z P r a b -> smooth_block r a b -> (forall c, a <= c -> c < b -> nonzero (P c)) ->
  StronglySorted before l -> Forall (inside z a b) l -> Forall (fun p => val P p = 0%Qc) l ->
  exists g l', length l' = length l /\ StronglySorted before l' /\ Forall (inside z a b) l' /\ alt (val (der_pieces P)) g l'.
Proof.
  intros Up J Sm NZ So In Va. destruct l as [|p [|p' l]].
  - exists 0%Qc, []. repeat split; constructor.
  - inversion In; subst. inversion Va; subst. destruct (zero_alt1 z a b P r p) as (g & y & Y1 & Y2); auto. exists g, [y]. repeat split; auto. repeat constructor.
  - destruct (zero_alt z a b P r Up J Sm NZ (p' :: l) p) as (g & l' & L & _ & S' & I' & A' & _); auto; [discriminate|]. exists g, l'. auto.
Qed.
Theorem zeros q : forall n a b P r ea eb z l, b - a <= n -> a < b -> rising_knots z a b -> (forall c, a <= c -> c < b -> pol q (peval (P c))) -> joined z P r a b ->
  contact ea (z a) (P a) [] -> contact eb (z b) (P (b - 1)) [] -> (forall c, a <= c -> c < b -> nonzero (P c)) ->
  StronglySorted before l -> Forall (inside z a b) l -> Forall (fun p => val P p = 0%Qc) l -> (0 < ea -> Forall (before (a, z a)) l) -> (0 < eb -> Forall (fun p => before p (b - 1, z b)) l) ->
  length l + ea + eb < dimension r q a b.
Proof.
  induction n as [|n IHn]; intros a b P r ea eb z l Hn Hab Up HP J Ca Cb NZ So In Va Ba Bb; try lia.
  destruct (jump_dec r a b) as [(c & C1 & C2 & C3)|Sm].
  - destruct (split_before l c So) as (l1 & l2 & -> & S1 & S2 & F1 & F2). apply Forall_app in In as [In1 In2]. apply Forall_app in Va as [Va1 Va2].
    rewrite (dimension_split r _ a b c C1 C2 C3), app_length.
    assert (length l1 + ea + 0 < dimension r q a c) as X1.
    { apply (IHn a c P r ea 0 z l1); auto; try lia.
      - eapply rising_part; [apply le_n| |exact Up]; lia. - intros; apply HP; lia. - eapply joined_part; [apply le_n| |exact J]; lia. - apply contact_0. - intros; apply NZ; lia.
      - apply (inside_part z a b); auto; rewrite Forall_forall in *; intros p Hp; split; [apply (In1 p Hp)|auto].
      - intros H. specialize (Ba H). now apply Forall_app in Ba as [Ba _]. }
    assert (length l2 + 0 + eb < dimension r q c b) as X2.
    { apply (IHn c b P r 0 eb z l2); auto; try lia.
      - eapply rising_part; [| |exact Up]; lia. - intros; apply HP; lia. - eapply joined_part; [| |exact J]; lia. - apply contact_0. - intros; apply NZ; lia.
      - apply (inside_part z a b); auto; rewrite Forall_forall in *; intros p Hp; split; [auto|apply (In2 p Hp)].
      - intros H. specialize (Bb H). now apply Forall_app in Bb as [_ Bb]. }
    lia.
  - destruct q as [|q].
    + destruct (constants z P r a b J Sm HP) as (K & HK). destruct (NZ a (le_n a) Hab) as (x & Hx). rewrite HK in Hx by lia.
      assert (ea = 0) as ->. { destruct ea; auto. exfalso. apply contact_zero in Ca; [|lia]. apply Hx. now rewrite <- (HK a (z a)). }
      assert (eb = 0) as ->. { destruct eb; auto. exfalso. apply contact_zero in Cb; [|lia]. apply Hx. rewrite <- (HK (b - 1) (z b)); auto; lia. }
      unfold dimension. destruct l as [|p l]; cbn; [lia|]. exfalso. inversion In as [|? ? (I1 & I2 & _) _]; subst. inversion Va as [|? ? V _]; subst. apply Hx. unfold val in V. rewrite HK in V; auto.
    + rewrite (dimension_der r q a b Sm).
      assert (forall g' l', StronglySorted before l' -> Forall (inside z a b) l' -> alt (val (der_pieces P)) g' l' -> length l' + (ea - 1) + (eb - 1) <= dimension (fun c => r c - 1) q a b) as D.
      { intros g' l' S' I' A'. apply (alternations q (b - a) a b (der_pieces P) (fun c => r c - 1) (ea - 1) (eb - 1) z g' l'); auto.
        - intros c H1 H2. apply pder_pol. auto.
        - intros c H1 H2. apply contact_pder'. auto.
        - apply (contact_pder' ea (z a) (P a) []). auto.
        - apply (contact_pder' eb (z b) (P (b - 1)) []). auto.
        - intros H. apply (nonzero_pder _ (z a)); [apply NZ; lia|]. apply (contact_zero ea); auto; lia.
        - intros H. apply (nonzero_pder _ (z b)); [apply NZ; lia|]. apply (contact_zero eb); auto; lia. }
      assert (forall L, StronglySorted before L -> Forall (inside z a b) L -> Forall (fun p => val P p = 0%Qc) L -> length L + (ea - 1) + (eb - 1) <= dimension (fun c => r c - 1) q a b) as D'.
      { intros L S1 I1 V1. destruct (zeros_alt z a b P r L) as (g & l' & Ll & S' & I' & A'); auto. rewrite <- Ll. eapply D; eauto. }
      assert (0 < ea -> val P (a, z a) = 0%Qc) as Vfa by (intros H; apply (contact_zero ea); auto). assert (0 < eb -> val P (b - 1, z b) = 0%Qc) as Vfb by (intros H; apply (contact_zero eb); auto).
      pose proof (inside_start z a b Hab Up) as Ia. pose proof (inside_end z a b Hab Up) as Ib.
      destruct (Nat.eq_dec ea 0) as [->|Ea]; destruct (Nat.eq_dec eb 0) as [->|Eb].
      * specialize (D' l So In Va). lia.
      * specialize (D' (l ++ [(b - 1, z b)])). rewrite app_length in D'. cbn [length] in D'. assert (length l + 1 + (0 - 1) + (eb - 1) <= dimension (fun c => r c - 1) q a b); [|lia].
        apply D'; [apply sorted_snoc; auto; apply Bb; lia|apply Forall_app; auto|apply Forall_app; split; auto; constructor; auto; apply Vfb; lia].
      * specialize (D' ((a, z a) :: l)). cbn [length] in D'. assert (S (length l) + (ea - 1) + (0 - 1) <= dimension (fun c => r c - 1) q a b); [|lia].
        apply D'; [constructor; auto; apply Ba; lia|auto|constructor; auto; apply Vfa; lia].
      * specialize (D' ((a, z a) :: l ++ [(b - 1, z b)])). cbn [length] in D'. rewrite app_length in D'. cbn [length] in D'.
        assert (S (length l + 1) + (ea - 1) + (eb - 1) <= dimension (fun c => r c - 1) q a b); [|lia]. apply D'.
        -- constructor; [apply sorted_snoc; auto; apply Bb; lia|]. apply Forall_app. split; [apply Ba; lia|]. constructor; auto. split; cbn; [lia|]. apply (knots_lt z a b Up); lia.
        -- constructor; auto. apply Forall_app; auto.
        -- constructor; [apply Vfa; lia|]. apply Forall_app; split; auto. constructor; auto. apply Vfb; lia.
Qed.
