(** The polynomial pieces of basis functions: smoothness at knots, independence. *)
From Coq Require Import List Arith Lia QArith Qcanon Permutation.
From Verif Require Import Base BaseQc S_Spline S_Exact S_Deriv P_Basis P_Refine P_Deriv P_Poly P_Zeros.
Import ListNotations.
Local Open Scope list_scope.
Local Open Scope nat_scope.

(** * Polynomials of the pieces *)
Lemma basis_poly U s p : forall i, exists B, length B <= S p /\ (forall u, basis U s p i u = peval B u) /\ (forall u, dbasis U s p i u = peval (pder B) u).
Proof.
  induction p as [|p IH]; intros i.
  - exists [if i =? s then 1%Qc else 0%Qc]. split; [cbn; lia|]. split; intros u; cbn; [destruct (i =? s); ring|ring].
  - destruct (IH i) as (B1 & L1 & E1 & D1). destruct (IH (i + 1)) as (B2 & L2 & E2 & D2). cbn [basis dbasis].
    set (h1 := (U (i + S p)%nat - U i)%Qc). set (h2 := (U (i + p + 2)%nat - U (i + 1)%nat)%Qc).
    exists (padd (pmul [- U i / h1; 1 / h1]%Qc B1) (pmul [U (i + p + 2)%nat / h2; - (1 / h2)]%Qc B2)). split; [|split].
    + rewrite length_padd. destruct (length_pmul [- U i / h1; 1 / h1]%Qc B1 ltac:(discriminate)) as [X|X]; destruct (length_pmul [U (i + p + 2)%nat / h2; - (1 / h2)]%Qc B2 ltac:(discriminate)) as [Y|Y]; subst; cbn [length] in *; try lia.
      all: cbn [pmul padd pscale map length] in *; lia.
    + intros u. rewrite peval_padd, !peval_pmul, E1, E2. cbn [peval]. unfold Qcdiv. ring.
    + intros u. rewrite pder_padd, !pder_pmul, E1, E2, D1, D2. cbn [peval pder padd]. unfold Qcdiv. ring.
Qed.

(** * Differences of two polar forms *)
Lemma blossom_head U s t u r i : blossom U s (u :: r) i = (blossom U s (t :: r) i + (u - t) * (blossom U s ((t + 1)%Qc :: r) i - blossom U s (t :: r) i))%Qc.
Proof. cbn [blossom]. unfold Qcdiv. ring. Qed.
Section Contact.
Variable U : nat -> Qc.
Variables s s' : nat.
Variable t : Qc.
Hypothesis M : mono U.
Hypothesis Hs : (U s < U (S s))%Qc.
Hypothesis Hs' : (U s' < U (S s'))%Qc.
Hypothesis Hss : s <= s'.
Hypothesis same : forall k, s < k -> k <= s' -> U k = t.
Let D ts i := (blossom U s' ts i - blossom U s ts i)%Qc.
Lemma D_perm ts ts' i : Permutation ts ts' -> D ts i = D ts' i.
Proof. intros H. unfold D. now rewrite (blossom_perm U s' ts ts' i M Hs' H), (blossom_perm U s ts ts' i M Hs H). Qed.
Lemma D_contact j : forall k rest i, exists h, forall u, D (repeat u j ++ repeat t k ++ rest) i = (qpow (u - t) (j + k + 1 - (s' - s))%nat * peval h u)%Qc.
Proof.
  induction j as [|j IH]; intros k rest i.
  - destruct (le_lt_dec (s' - s) k) as [L|L].
    + exists []. intros u. cbn [repeat app peval]. unfold D. rewrite (blossom_change_span U s s' t (repeat t k ++ rest) (repeat t (k - (s' - s)) ++ rest) i M Hs Hs' Hss same); [ring|].
      rewrite app_assoc, <- repeat_app. now replace (s' - s + (k - (s' - s))) with k by lia.
    + exists [D (repeat t k ++ rest) i]. intros u. replace (0 + k + 1 - (s' - s)) with 0 by lia. cbn [repeat app qpow peval]. ring.
  - destruct (IH (S k) rest i) as (h1 & E1). destruct (IH k ((t + 1)%Qc :: rest) i) as (h2 & E2).
    assert (forall u, D (repeat u (S j) ++ repeat t k ++ rest) i = (D (repeat u j ++ repeat t (S k) ++ rest) i + (u - t) * (D (repeat u j ++ repeat t k ++ (t + 1)%Qc :: rest) i - D (repeat u j ++ repeat t (S k) ++ rest) i))%Qc) as St.
    { intros u. set (A := repeat u j ++ repeat t k ++ rest).
      rewrite (D_perm (repeat u j ++ repeat t (S k) ++ rest) (t :: A)), (D_perm (repeat u j ++ repeat t k ++ (t + 1)%Qc :: rest) ((t + 1)%Qc :: A)).
      - change (repeat u (S j) ++ repeat t k ++ rest) with (u :: A). unfold D. rewrite (blossom_head U s' t u A i), (blossom_head U s t u A i). ring.
      - unfold A. rewrite app_assoc. symmetry. rewrite app_assoc. apply Permutation_middle.
      - unfold A. cbn [repeat app]. symmetry. apply Permutation_middle. }
    destruct (le_lt_dec (s' - s) (j + k + 1)) as [L|L].
    + exists (padd h1 (padd h2 (pscale (- (1))%Qc (pmul [- t; 1]%Qc h1)))). intros u. rewrite St, E1, E2, !peval_padd, peval_pscale, peval_pmul.
      replace (j + S k + 1 - (s' - s)) with (S (j + k + 1 - (s' - s))) by lia. replace (S j + k + 1 - (s' - s)) with (S (j + k + 1 - (s' - s))) by lia. cbn [qpow peval]. ring.
    + exists (padd h1 (pmul [- t; 1]%Qc (padd h2 (pscale (- (1))%Qc h1)))). intros u. rewrite St, E1, E2, !peval_padd, peval_pmul, peval_padd, peval_pscale.
      replace (j + S k + 1 - (s' - s)) with 0 by lia. replace (j + k + 1 - (s' - s)) with 0 by lia. replace (S j + k + 1 - (s' - s)) with 0 by lia. cbn [qpow peval]. ring.
Qed.
(** Pieces on the two sides of a knot of multiplicity m agree to order p + 1 - m. *)
Lemma pieces_contact p i B B' : (forall u, basis U s p i u = peval B u) -> (forall u, basis U s' p i u = peval B' u) -> contact (p + 1 - (s' - s)) t B' B.
Proof.
  intros E E'. destruct (D_contact p 0 [] i) as (h & H). exists h. intros u. rewrite <- E, <- E', !basis_blossom. specialize (H u). cbn [repeat app] in H. rewrite app_nil_r in H. unfold D in H. rewrite H.
  now rewrite Nat.add_0_r.
Qed.
End Contact.

(** * Independence of the pieces of a span *)
Section Span.
Variable U : nat -> Qc.
Variable s : nat.
Hypothesis M : mono U.
Hypothesis Hs : (U s < U (S s))%Qc.
Lemma blossom_dual p : forall i j, i <= s -> s <= i + p -> blossom U s (args U i p) j = if j =? i then 1%Qc else 0%Qc.
Proof.
  induction p as [|p IH]; intros i j H1 H2.
  - replace i with s by lia. reflexivity.
  - destruct (Nat.eq_dec i s) as [->|N].
    + rewrite args_S. cbn [blossom]. rewrite !IH by lia. replace (length (args U s p)) with p by now rewrite length_args.
      assert (U (s + S p)%nat - U s <> 0)%Qc as Nz by (apply (span_neq U s); auto; lia).
      destruct (Nat.eqb_spec j s) as [->|Nj].
      * destruct (Nat.eqb_spec (s + 1) s); [lia|]. rewrite !Qcmult_0_r. field. exact Nz.
      * destruct (Nat.eqb_spec (j + 1) s) as [E|E]; [|ring]. replace (j + p + 2) with (s + S p) by lia. unfold Qcdiv. ring.
    + rewrite (blossom_perm U s _ _ j M Hs (args_shift_perm U i p)). cbn [blossom]. rewrite !IH by lia. replace (length (args U (S i) p)) with p by now rewrite length_args.
      assert (U (i + p + 2)%nat - U (i + 1)%nat <> 0)%Qc as Nz by (apply (span_neq U s); auto; lia).
      destruct (Nat.eqb_spec j i) as [->|Nj].
      * destruct (Nat.eqb_spec i (S i)); [lia|]. destruct (Nat.eqb_spec (i + 1) (S i)); [|lia]. replace (S i) with (i + 1) by lia. rewrite !Qcmult_0_r. field. exact Nz.
      * destruct (Nat.eqb_spec (j + 1) (S i)); [lia|]. destruct (Nat.eqb_spec j (S i)) as [->|E]; [|ring]. unfold Qcdiv. ring.
Qed.
Variable c : nat -> Qc.
Variable n : nat.
Let Phi ts := qsum (map (fun i => c i * blossom U s ts i)%Qc (seq 0 n)).
Lemma Phi_perm ts ts' : Permutation ts ts' -> Phi ts = Phi ts'.
Proof. intros H. unfold Phi. apply qsum_ext. intros i _. now rewrite (blossom_perm U s ts ts' i M Hs H). Qed.
Lemma Phi_head t u r : Phi (u :: r) = (Phi (t :: r) + (u - t) * (Phi ((t + 1)%Qc :: r) - Phi (t :: r)))%Qc.
Proof.
  unfold Phi. rewrite <- qsum_map_sub, <- qsum_map_mul_l, <- qsum_map_add. apply qsum_ext. intros i _. rewrite (blossom_head U s t u r i). ring.
Qed.
Lemma Phi_expand m : forall rest u, exists h, forall x,
  Phi (repeat (u + x)%Qc m ++ rest) = (Phi (repeat u m ++ rest) + inj m * x * (Phi ((u + 1)%Qc :: repeat u (m - 1)%nat ++ rest) - Phi (u :: repeat u (m - 1)%nat ++ rest)) + x * x * peval h x)%Qc.
Proof.
  induction m as [|m IH]; intros rest u.
  - exists []. intros x. cbn [repeat app peval]. change (inj 0) with 0%Qc. ring.
  - destruct (IH (u :: rest) u) as (h1 & E1). destruct (IH ((u + 1)%Qc :: rest) u) as (h2 & E2).
    set (L := fun r => (Phi ((u + 1)%Qc :: repeat u (m - 1)%nat ++ r) - Phi (u :: repeat u (m - 1)%nat ++ r))%Qc).
    exists (padd (padd h1 [inj m * (L ((u + 1)%Qc :: rest) - L (u :: rest))]%Qc) (0%Qc :: padd h2 (pscale (- (1))%Qc h1))).
    intros x. cbn [repeat app]. rewrite (Phi_head u (u + x)%Qc). replace (u + x - u)%Qc with x by ring.
    assert (forall a b, Phi (a :: repeat b m ++ rest) = Phi (repeat b m ++ a :: rest)) as Mv by (intros a b; apply Phi_perm, Permutation_middle).
    rewrite !Mv, E1, E2. fold (L (u :: rest)). fold (L ((u + 1)%Qc :: rest)). replace (S m - 1) with m by lia. rewrite !Mv.
    rewrite !peval_padd. cbn [peval]. rewrite peval_padd, peval_pscale. rewrite inj_S.
    assert (inj m * L (u :: rest) = inj m * (Phi (repeat u m ++ (u + 1)%Qc :: rest) - Phi (repeat u m ++ u :: rest)))%Qc as El.
    { destruct m as [|m']; [change (inj 0) with 0%Qc; ring|]. f_equal. unfold L. replace (S m' - 1) with m' by lia. f_equal.
      apply Phi_perm. cbn [repeat app]. rewrite <- (Permutation_middle (repeat u m') rest u), <- (Permutation_middle (repeat u m') rest (u + 1)%Qc). apply perm_swap. }
    set (Lu := L (u :: rest)) in *. set (Lv := L ((u + 1)%Qc :: rest)) in *.
    replace (inj m * x * Lu)%Qc with (x * (inj m * Lu))%Qc by ring. rewrite El. 
    replace (x * x * (peval h1 x + (inj m * (Lv - Lu) + x * 0) + (0 + x * (peval h2 x + - (1) * peval h1 x))))%Qc
      with (x * x * (peval h1 x + inj m * Lv - inj m * Lu + x * (peval h2 x - peval h1 x)))%Qc by ring. rewrite El. ring.
Qed.
Lemma Phi_polar m : forall rest, (forall u, Phi (repeat u m ++ rest) = 0%Qc) -> forall ts, length ts = m -> Phi (ts ++ rest) = 0%Qc.
Proof.
  induction m as [|m IH]; intros rest H ts Ht.
  - destruct ts; [|discriminate]. exact (H 0%Qc).
  - destruct ts as [|a ts]; [discriminate|]. injection Ht as Ht.
    assert (Phi ((a :: ts) ++ rest) = Phi (ts ++ a :: rest)) as ->. { apply Phi_perm. cbn [app]. apply Permutation_middle. }
    apply IH; auto. intros u. destruct (Phi_expand (S m) rest u) as (h & E). replace (S m - 1) with m in E by lia. set (K := (Phi ((u + 1)%Qc :: repeat u m ++ rest) - Phi (u :: repeat u m ++ rest))%Qc) in E.
    assert (Forall (fun a => a = 0%Qc) (0%Qc :: (inj (S m) * K)%Qc :: h)) as Z.
    { apply same_coefficients. intros x. specialize (E x). rewrite !H in E. cbn [peval]. symmetry. etransitivity; [exact E|]. ring. }
    pose proof (Forall_inv (Forall_inv_tail Z)) as ZK. cbv beta in ZK. assert (K = 0%Qc) as K0. { apply Qcmult_integral in ZK as [X|X]; auto. exfalso. apply (inj_neq0 (S m)); auto; lia. }
    assert (Phi (repeat u m ++ a :: rest) = Phi (a :: repeat u m ++ rest)) as -> by (symmetry; apply Phi_perm, Permutation_middle).
    rewrite (Phi_head u a). fold K. rewrite K0. change (u :: repeat u m ++ rest) with (repeat u (S m) ++ rest). rewrite H. ring.
Qed.
Lemma pieces_independent p : (forall u, qsum (map (fun i => c i * basis U s p i u)%Qc (seq 0 n)) = 0%Qc) -> forall i, i < n -> i <= s -> s <= i + p -> c i = 0%Qc.
Proof.
  intros H i Hn H1 H2. assert (Phi (args U i p ++ []) = 0%Qc) as Z.
  { apply (Phi_polar p). - intros u. rewrite app_nil_r. rewrite <- (H u). unfold Phi. apply qsum_ext. intros k _. now rewrite basis_blossom. - apply length_args. }
  rewrite app_nil_r in Z. rewrite <- Z. unfold Phi. symmetry. etransitivity; [apply qsum_ext; intros k _; rewrite blossom_dual by auto; reflexivity|].
  rewrite (qsum_single _ n i Hn).
  - rewrite Nat.eqb_refl. ring.
  - intros k _ Nk. destruct (Nat.eqb_spec k i); [contradiction|ring].
Qed.
End Span.
