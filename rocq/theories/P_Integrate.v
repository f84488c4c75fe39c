(** Proofs about integration over splines: determinants, quadrature, sums over
    elements. *)
From Coq Require Import List Arith ZArith Lia Bool QArith Qcanon Sorted Permutation.
From Verif Require Import Base BaseRadix BaseQc S_Grid P_Grid S_Spline P_Spline S_Value P_Value S_Knots S_Pieces S_Deriv P_Deriv
  M_Grid M_Core M_Knots M_Bezier M_Extract M_Pieces P_Pieces M_Create M_Integrate S_Integrate.
From Verif Require P_Create P_Knots W_Create P_Shapes.
Import ListNotations.
Local Open Scope list_scope.
Local Open Scope nat_scope.

(** * Determinants *)
Definition qprod (l : list Qc) : Qc := fold_right Qcmult 1%Qc l.
Lemma qprod_app a b : qprod (a ++ b) = (qprod a * qprod b)%Qc.
Proof. induction a as [|x a IH]; cbn [app qprod fold_right]; [unfold qprod; ring|]. change (fold_right Qcmult 1%Qc) with qprod. rewrite IH. ring. Qed.
Lemma det_ext n : forall a b, (forall i j, i < n -> j < n -> a i j = b i j) -> det n a = det n b.
Proof.
  induction n as [|n IH]; intros a b H; [reflexivity|]. cbn [det]. apply qsum_ext. intros j Hj. apply in_seq in Hj.
  rewrite (H 0 j) by lia. f_equal. apply IH. intros i k Hi Hk. apply H; [lia|]. destruct (Nat.ltb_spec k j); lia.
Qed.
Lemma skipped_prod (c : nat -> Qc) n j : j <= n ->
  (c j * qprod (map (fun k => c (if k <? j then k else S k)) (seq 0 n)) = qprod (map c (seq 0 (S n))))%Qc.
Proof.
  intros H. replace (S n) with (j + (1 + (n - j))) by lia. replace n with (j + (n - j)) at 1 by lia.
  rewrite !seq_app, !map_app, !qprod_app. cbn [seq Nat.add map app].
  replace (map (fun k => c (if k <? j then k else S k)) (seq 0 j)) with (map c (seq 0 j)).
  - replace (map (fun k => c (if k <? j then k else S k)) (seq j (n - j))) with (map c (seq (S j) (n - j))).
    + replace (j + 1) with (S j) by lia. unfold qprod at 4. cbn [fold_right]. ring.
    + rewrite <- seq_shift, map_map. apply map_ext_in. intros k Hk. apply in_seq in Hk. destruct (Nat.ltb_spec k j); [lia|auto].
  - apply map_ext_in. intros k Hk. apply in_seq in Hk. destruct (Nat.ltb_spec k j); [auto|lia].
Qed.
Lemma det_scale n : forall (r c : nat -> Qc) a,
  det n (fun i j => r i * a i j * c j)%Qc = (qprod (map r (seq 0 n)) * qprod (map c (seq 0 n)) * det n a)%Qc.
Proof.
  induction n as [|n IH]; intros r c a; [cbn; ring|]. cbn [det]. rewrite <- qsum_map_mul_l. apply qsum_ext. intros j Hj. apply in_seq in Hj.
  rewrite (IH (fun i => r (S i)) (fun k => c (if k <? j then k else S k)) (fun i k => a (S i) (if k <? j then k else S k))).
  rewrite <- (skipped_prod c n j) by lia. cbn [seq map qprod fold_right]. rewrite <- seq_shift, map_map. change (fold_right Qcmult 1%Qc) with qprod. ring.
Qed.

(** * Quadrature points *)
Lemma cp_block_in {A} (arrays : list (list A)) row : In row (cp_block arrays) -> Forall2 (fun x a => In x a) row arrays.
Proof.
  revert row. induction arrays as [|a arrays IH]; intros row H; cbn [cp_block] in H.
  - destruct H as [<-|[]]. constructor.
  - apply in_flat_map in H as (x & Hx & H). apply in_map_iff in H as (r & <- & Hr). constructor; auto.
Qed.
Lemma cp_block_len {A B} (arrays : list (list A)) (arrays' : list (list B)) : map (@length A) arrays = map (@length B) arrays' ->
  length (cp_block arrays) = length (cp_block arrays').
Proof.
  revert arrays'. induction arrays as [|a arrays IH]; intros [|a' arrays'] H; try discriminate; auto. cbn [map] in H. injection H as H1 H2. cbn [cp_block].
  specialize (IH _ H2). revert a' H1. induction a as [|x a IHa]; intros [|x' a'] H1; try discriminate; auto. cbn [flat_map]. rewrite !app_length, !map_length, IH.
  f_equal. apply IHa. now injection H1.
Qed.
Lemma cp_block_sum (arrays : list (list Qc)) : qsum (map qprod (cp_block arrays)) = qprod (map qsum arrays).
Proof.
  induction arrays as [|a arrays IH]; [reflexivity|]. cbn [cp_block]. rewrite qsum_flat_map. cbn [map qprod fold_right].
  change (fold_right Qcmult 1%Qc) with qprod. rewrite <- IH.
  rewrite <- (map_id a) at 2. rewrite <- qsum_map_mul_r. apply qsum_ext. intros x _. rewrite map_map. cbn [qprod fold_right].
  change (fold_right Qcmult 1%Qc) with qprod. now rewrite qsum_map_mul_l.
Qed.
Lemma qprod_perm a b : Permutation a b -> qprod a = qprod b.
Proof. induction 1; cbn [qprod fold_right] in *; change (fold_right Qcmult 1%Qc) with qprod in *; try congruence. ring. Qed.
Lemma combine_fst_in {A B} (l : list A) (l' : list B) x y : In (x, y) (combine l l') -> In x l.
Proof. apply in_combine_l. Qed.

(** Points of quadrature: inside the unit cube, one coordinate per axis; the
    weights sum to one. *)
Definition good_quad (n : nat) (quad : list (list Qc * Qc)) : Prop :=
  quad <> [] /\
  (forall tw, In tw quad -> length (fst tw) = n /\ Forall (fun x => (0 < x)%Qc /\ (x < 1)%Qc) (fst tw)) /\
  qsum (map snd quad) = 1%Qc.
Lemma orders_spec s orders os : quad_orders s orders = Some os -> length os = length (sp_axes s) /\ Forall (fun o => 0 < o) os.
Proof.
  unfold quad_orders. destruct orders as [zs|].
  - destruct (Nat.eqb_spec (length zs) (length (sp_axes s))) as [E|]; [|discriminate]. cbn [andb].
    destruct (forallb _ zs) eqn:F; [|discriminate]. intros [= <-]. rewrite map_length. split; auto. apply Forall_map.
    rewrite forallb_forall in F. apply Forall_forall. intros z Hz. apply F in Hz. apply Z.ltb_lt in Hz. lia.
  - intros [= <-]. rewrite map_length. split; auto. apply Forall_map, Forall_forall. intros a _. cbv zeta.
    apply Nat.div_str_pos. lia.
Qed.
Lemma quadrature_good O s orders quad : gaussian (g_leggauss O) -> sp_axes s <> [] -> quadrature O s orders = Some quad ->
  good_quad (length (sp_axes s)) quad.
Proof.
  intros G Hne. unfold quadrature. destruct (quad_orders s orders) as [os|] eqn:Eo; [|discriminate].
  apply orders_spec in Eo as [Lo Fo].
  set (P := map (fun o => map (fun x => x * qc 1 2 + qc 1 2)%Qc (fst (g_leggauss O o))) os).
  set (W := map (fun o => map (fun w => w * qc 1 2)%Qc (snd (g_leggauss O o))) os).
  assert (os <> []) as No. { intros ->. apply Hne. now destruct (sp_axes s). }
  unfold cartesian_product. destruct P as [|p0 P0] eqn:EP; [exfalso; apply No; now destruct os|]. rewrite <- EP.
  destruct W as [|w0 W0] eqn:EW; [exfalso; apply No; now destruct os|]. rewrite <- EW. intros [= <-].
  assert (map (@length Qc) P = map (@length Qc) W) as EL.
  { unfold P, W. rewrite !map_map. apply map_ext_in. intros o Ho. rewrite !map_length. symmetry. apply G. now apply (proj1 (Forall_forall _ _) Fo). }
  set (cp := map (@rev Qc) (cp_block (rev P))). set (cw := map (fun r => fold_right Qcmult 1%Qc r) (map (@rev Qc) (cp_block (rev W)))).
  assert (length cp = length cw) as Lc.
  { unfold cp, cw. rewrite !map_length. apply cp_block_len. rewrite !map_rev. now f_equal. }
  split; [|split].
  - assert (cp_block (rev P) <> []) as N.
    { assert (forall arrays : list (list Qc), Forall (fun a => a <> []) arrays -> cp_block arrays <> []) as K.
      { clear. induction arrays as [|a arrays IH]; intros F; [discriminate|]. inversion F as [|? ? Ha Fa]; subst. cbn [cp_block].
        destruct a as [|x a]; [contradiction|]. cbn [flat_map]. specialize (IH Fa). destruct (cp_block arrays); [contradiction|discriminate]. }
      apply K. apply Forall_rev. unfold P. apply Forall_map. eapply Forall_impl; [|exact Fo]. intros o Ho E. apply map_eq_nil in E. now apply (G o Ho). }
    unfold cp in Lc. rewrite map_length in Lc. unfold cp. destruct (cp_block (rev P)); [contradiction|]. cbn [map]. destruct cw; [discriminate Lc|discriminate].
  - intros [t w] H. cbn [fst]. apply combine_fst_in in H. unfold cp in H. apply in_map_iff in H as (r & <- & Hr). apply cp_block_in in Hr.
    split.
    + rewrite rev_length, (Forall2_len _ _ _ Hr), rev_length. unfold P. now rewrite map_length.
    + apply Forall_rev. assert (forall row arrays, Forall2 (fun (x : Qc) a => In x a) row arrays ->
        Forall (Forall (fun x => (0 < x)%Qc /\ (x < 1)%Qc)) arrays -> Forall (fun x => (0 < x)%Qc /\ (x < 1)%Qc) row) as K.
      { clear. induction 1 as [|x a row arrays Hx H IH]; intros F; constructor; inversion F; subst; auto.
        rewrite Forall_forall in H2. now apply H2. }
      apply (K _ _ Hr). apply Forall_rev. unfold P. apply Forall_map. eapply Forall_impl; [|exact Fo]. intros o Ho. apply Forall_map.
      destruct (G o Ho) as (_ & _ & F & _). eapply Forall_impl; [|exact F]. intros x [A B].
      assert (qc 1 2 + qc 1 2 = 1)%Qc as E by (apply Qc_is_canon; reflexivity). assert (0 < qc 1 2)%Qc as Ph by reflexivity.
      set (h := qc 1 2) in *. clearbody h.
      assert (0 < (x + 1) * h)%Qc by (apply Qc_mul_pos; auto; qlra). assert (0 < (1 - x) * h)%Qc by (apply Qc_mul_pos; auto; qlra).
      split; qnra.
  - assert (forall (A B : Type) (l : list A) (l' : list B), length l = length l' -> map snd (combine l l') = l') as K.
    { clear. induction l; intros [|b l'] H; try discriminate; auto. cbn. f_equal. apply IHl. now injection H. }
    rewrite K by exact Lc. unfold cw. rewrite map_map.
    transitivity (qsum (map qprod (cp_block (rev W)))).
    { apply qsum_ext. intros r _. apply qprod_perm. symmetry. apply Permutation_rev. }
    rewrite cp_block_sum, map_rev, <- (qprod_perm _ _ (Permutation_rev (map qsum W))). unfold W. rewrite map_map.
    clear - G Fo. induction Fo as [|o os Ho Fo IH]; [reflexivity|]. cbn [map qprod fold_right]. change (fold_right Qcmult 1%Qc) with qprod.
    rewrite IH, qsum_map_mul_r, map_id. destruct (G o Ho) as (_ & _ & _ & ->). apply Qc_is_canon. reflexivity.
Qed.

(** * Sums over elements *)
Lemma combine_nth_lt {A B} (l : list A) (l' : list B) k d d' : k < length l -> k < length l' -> nth k (combine l l') (d, d') = (nth k l d, nth k l' d').
Proof.
  revert l' k. induction l as [|a l IH]; intros [|b l'] [|k] H H'; cbn [length combine nth] in *; try lia; auto. apply IH; lia.
Qed.
Lemma elements_block knots : elements knots = cp_block (map (fun us => combine us (tl us)) knots).
Proof. induction knots as [|us knots IH]; [reflexivity|]. cbn [elements map cp_block]. now rewrite IH. Qed.
Definition counts (knots : list (list Qc)) : list nat := map (fun us => length us - 1) knots.
Definition element (knots : list (list Qc)) (c : list nat) : list (Qc * Qc) :=
  select (0, 0)%Qc (map (fun us => combine us (tl us)) knots) c.
Lemma interval_len (us : list Qc) : length (combine us (tl us)) = length us - 1.
Proof. rewrite combine_length. destruct us; cbn [tl length]; lia. Qed.
Lemma elements_sum (F : list (Qc * Qc) -> Qc) knots :
  qsum (map F (elements knots)) = qsum (map (fun c => F (element knots c)) (f_indices (counts knots))).
Proof.
  rewrite elements_block, (cp_block_spec (0, 0)%Qc), map_map. apply qsum_perm.
  replace (map (@length (Qc * Qc)) (map (fun us => combine us (tl us)) knots)) with (counts knots).
  - apply Permutation_map. apply c_f_perm.
  - unfold counts. rewrite map_map. apply map_ext. intros us. symmetry. apply interval_len.
Qed.
Lemma pieces_sum {A} (bs : list A) knots (val : A -> Qc) (V : list nat -> Qc) : length bs = prodn (counts knots) ->
  (forall c, below (counts knots) c -> exists b, nth_error bs (flat_id (counts knots) c) = Some b /\ val b = V c) ->
  qsum (map val bs) = qsum (map V (f_indices (counts knots))).
Proof.
  intros L H. f_equal. apply nth_error_ext. intros g. rewrite !nth_error_map, nth_error_f_indices.
  destruct (Nat.ltb_spec g (prodn (counts knots))) as [Hg|Hg].
  - destruct (below_exists (counts knots) g Hg) as [B E]. destruct (H _ B) as (b & Eb & Ev). rewrite E in Eb. rewrite Eb. cbn. now f_equal.
  - rewrite (proj2 (nth_error_None bs g)) by lia. reflexivity.
Qed.
Lemma element_nth knots c k : length c = length knots -> k < length knots -> S (nth k c 0) < length (nth k knots []) ->
  nth k (element knots c) (0, 0)%Qc = (nth (nth k c 0) (nth k knots []) 0%Qc, nth (S (nth k c 0)) (nth k knots []) 0%Qc).
Proof.
  revert c k. induction knots as [|us knots IH]; intros [|c0 c] k L Hk Hc; cbn [length] in *; try lia. unfold element, select in *.
  cbn [map combine]. destruct k as [|k]; cbn [nth fst snd] in *.
  - rewrite combine_nth_lt; [|lia|destruct us; cbn [length tl] in *; lia]. f_equal. destruct us; cbn [tl length nth] in *; [lia|auto].
  - apply IH; lia.
Qed.

(** * Axes and elements *)
Definition unit_point (ts : list Qc) : Prop := Forall (fun x => (0 < x)%Qc /\ (x < 1)%Qc) ts.
Lemma sorted_nth us c c' : StronglySorted Qclt us -> c < c' -> c' < length us -> (nth c us 0 < nth c' us 0)%Qc.
Proof.
  intros SS. revert c c'; induction SS as [|x l SS IH F]; intros [|c] [|c'] H H'; cbn in *; try lia.
  - rewrite Forall_forall in F. apply F. apply nth_In. lia.
  - apply IH; lia.
Qed.
Lemma firstn_sum_lt m c : Forall (fun k => 0 < k) m -> c < length m -> list_sum (firstn c m) < list_sum (firstn (S c) m).
Proof. intros F H. rewrite firstn_S_sum by auto. rewrite Forall_forall in F. specialize (F (nth c m 0) (nth_In _ _ H)). lia. Qed.
Lemma firstn_sum_mono (m : list nat) c c' : c <= c' -> list_sum (firstn c m) <= list_sum (firstn c' m).
Proof.
  revert c c'. induction m as [|x m IH]; intros [|c] [|c'] H; cbn [firstn]; try lia; [cbn; lia|].
  rewrite !list_sum_cons. specialize (IH c c' ltac:(lia)). lia.
Qed.
(** Facts about a clamped axis with distinct knots [us]. *)
Lemma axis_bounds a us : axis_knots a us -> 2 <= length us /\ ax_lower a = nth 0 us 0%Qc /\ ax_upper a = nth (length us - 1) us 0%Qc.
Proof.
  intros (SS & H). destruct a as [p|p kv].
  - subst us. cbn. auto.
  - destruct H as (m & -> & L & L2 & M0 & M1 & F). split; [lia|]. cbn [ax_lower ax_upper].
    destruct m as [|m0 m]; [cbn in L2; lia|]. cbn [nth] in M0. subst m0.
    assert (list_sum (p + 1 :: m) = list_sum (firstn (length m) (p + 1 :: m)) + (p + 1)) as ES.
    { rewrite <- M1 at 3. cbn [length]. replace (S (length m) - 1) with (length m) by lia. rewrite <- firstn_S_sum by (cbn; lia).
      now rewrite <- firstn_all with (l := p + 1 :: m) at 1. }
    assert (p + 1 <= list_sum (firstn (length m) (p + 1 :: m))) as EG.
    { cbn [length] in L2. destruct m as [|m1 m]; [cbn in L2; lia|]. cbn [length firstn]. rewrite list_sum_cons. lia. }
    split.
    + rewrite (kn_nth _ _ 0%Qc) by (rewrite expand_length by auto; lia). apply expand_nth; [auto|cbn; lia|]. cbn [firstn]. rewrite list_sum_cons. cbn. lia.
    + cbn [ax_n]. rewrite expand_length by auto. rewrite (kn_nth _ _ 0%Qc) by (rewrite expand_length by auto; lia). rewrite L. cbn [length].
      replace (S (length m) - 1) with (length m) by lia. apply expand_nth; [auto|cbn; lia|]. replace (S (length m)) with (length (p + 1 :: m)) by reflexivity.
      rewrite firstn_all. lia.
Qed.
Lemma axis_inside a us c u : axis_knots a us -> S c < length us -> (nth c us 0 < u)%Qc -> (u < nth (S c) us 0)%Qc -> ax_inside a u.
Proof.
  intros (SS & H) Hc H1 H2. destruct a as [p|p kv].
  - subst us. cbn [length] in Hc. destruct c as [|c]; [|lia]. cbn in *. auto.
  - destruct H as (m & -> & L & L2 & M0 & M1 & F). cbn [ax_inside ax_n]. exists (list_sum (firstn (S c) m) - 1).
    pose proof (firstn_sum_lt m c F ltac:(lia)) as G1. pose proof (firstn_sum_lt m (S c) F ltac:(lia)) as G2.
    pose proof (firstn_sum_le (S (S c)) m) as G3.
    assert (p + 1 <= list_sum (firstn (S c) m)) as G4.
    { destruct m as [|m0 m]; [cbn in L2; lia|]. cbn [nth] in M0. subst m0. cbn [firstn]. rewrite list_sum_cons. lia. }
    assert (list_sum (firstn (S c) m) + (p + 1) <= list_sum m) as G5.
    { pose proof (firstn_sum_mono m (S c) (length m - 1) ltac:(lia)) as G. rewrite <- M1.
      replace (list_sum m) with (list_sum (firstn (S (length m - 1)) m)) by (replace (S (length m - 1)) with (length m) by lia; now rewrite firstn_all).
      rewrite (firstn_S_sum (length m - 1)) by lia. lia. }
    rewrite expand_length by auto.
    replace (kn (expand_knots us m) (list_sum (firstn (S c) m) - 1)) with (nth c us 0%Qc).
    2:{ rewrite (kn_nth _ _ 0%Qc) by (rewrite expand_length by auto; lia). symmetry. apply expand_nth; auto; lia. }
    replace (kn (expand_knots us m) (S (list_sum (firstn (S c) m) - 1))) with (nth (S c) us 0%Qc).
    2:{ rewrite (kn_nth _ _ 0%Qc) by (rewrite expand_length by auto; lia). symmetry. apply expand_nth; auto; lia. }
    repeat split; auto; lia.
Qed.
Lemma axis_in_domain a us c u : axis_knots a us -> S c < length us -> (nth c us 0 <= u)%Qc -> (u <= nth (S c) us 0)%Qc -> ax_domain a u.
Proof.
  intros K Hc H1 H2. destruct (axis_bounds a us K) as (_ & El & Eu). destruct K as (SS & _). unfold ax_domain. rewrite El, Eu. split.
  - destruct c as [|c]; auto. pose proof (sorted_nth us 0 (S c) SS ltac:(lia) ltac:(lia)). qlra.
  - destruct (Nat.eq_dec (S c) (length us - 1)) as [E|E]; [now rewrite <- E|].
    pose proof (sorted_nth us (S c) (length us - 1) SS ltac:(lia) ltac:(lia)). qlra.
Qed.
(** Points of an element. *)
Lemma between_in (lo hi t : Qc) : (lo < hi)%Qc -> (0 < t)%Qc -> (t < 1)%Qc -> (lo < lo + t * (hi - lo))%Qc /\ (lo + t * (hi - lo) < hi)%Qc.
Proof.
  intros H A B. assert (0 < hi - lo)%Qc as P by qlra. assert (0 < t * (hi - lo))%Qc by now apply Qc_mul_pos.
  assert (0 < (1 - t) * (hi - lo))%Qc by (apply Qc_mul_pos; auto; qlra). split; qlra.
Qed.
Lemma element_cons us knots c cs : S c < length us ->
  element (us :: knots) (c :: cs) = (nth c us 0%Qc, nth (S c) us 0%Qc) :: element knots cs.
Proof.
  intros H. unfold element, select. cbn [map combine fst snd]. f_equal. rewrite combine_nth_lt; [|lia|destruct us; cbn [length tl] in *; lia].
  f_equal. destruct us; cbn [tl length nth] in *; [lia|auto].
Qed.
Lemma element_inside axes knots c ts : Forall2 axis_knots axes knots -> below (counts knots) c -> length ts = length knots -> unit_point ts ->
  Forall2 ax_inside axes (point_of (element knots c) ts) /\ Forall2 ax_domain axes (point_of (element knots c) ts).
Proof.
  intros K. revert c ts. induction K as [|a us axes knots Ka K IH]; intros c ts B L U.
  - inversion B; subst. destruct ts; [|discriminate L]. split; constructor.
  - unfold counts in B. cbn [map] in B. inversion B as [|n c0 ns cs Hc B' E1 E2]; subst. destruct ts as [|t ts]; [discriminate L|]. injection L as L.
    inversion U as [|x l [U1 U2] U']; subst. rewrite element_cons by lia. unfold point_of. cbn [combine map fst snd].
    destruct (between_in (nth c0 us 0%Qc) (nth (S c0) us 0%Qc) t) as [P1 P2]; auto. { apply sorted_nth; [apply Ka|lia|lia]. }
    destruct (IH cs ts B' L U') as [I D]. split; constructor; auto.
    + apply (axis_inside a us c0); auto. lia.
    + apply (axis_in_domain a us c0); auto; [lia|qlra|qlra].
Qed.
Lemma size_pos axes knots c : Forall2 axis_knots axes knots -> below (counts knots) c -> (0 < size_of (element knots c))%Qc.
Proof.
  intros K. revert c. induction K as [|a us axes knots Ka K IH]; intros c B.
  - inversion B; subst. reflexivity.
  - unfold counts in B. cbn [map] in B. inversion B as [|n c0 ns cs Hc B' E1 E2]; subst. rewrite element_cons by lia. unfold size_of. cbn [fold_right fst snd].
    apply Qc_mul_pos; [|now apply IH]. assert (nth c0 us 0 < nth (S c0) us 0)%Qc by (apply sorted_nth; [apply Ka|lia|lia]). qlra.
Qed.
Definition width (e : list (Qc * Qc)) (j : nat) : Qc := (snd (nth j e (0, 0)%Qc) - fst (nth j e (0, 0)%Qc))%Qc.
Lemma size_prod e : size_of e = qprod (map (width e) (seq 0 (length e))).
Proof.
  induction e as [|iv e IH]; [reflexivity|]. unfold size_of. cbn [length seq map fold_right qprod]. change (fold_right Qcmult 1%Qc) with qprod.
  unfold width at 1. cbn [nth]. f_equal. fold (size_of e). rewrite IH. f_equal. rewrite <- seq_shift, map_map. apply map_ext. reflexivity.
Qed.
Lemma element_length knots c : length c = length knots -> length (element knots c) = length knots.
Proof. intros H. unfold element, select. rewrite map_length, combine_length, map_length. lia. Qed.
Lemma width_pos axes knots c j : Forall2 axis_knots axes knots -> below (counts knots) c -> j < length knots -> (0 < width (element knots c) j)%Qc.
Proof.
  intros K. revert c j. induction K as [|a us axes knots Ka K IH]; intros c j B Hj; cbn [length] in Hj; [lia|].
  unfold counts in B. cbn [map] in B. inversion B as [|n c0 ns cs Hc B' E1 E2]; subst. rewrite element_cons by lia. unfold width.
  destruct j as [|j]; cbn [nth fst snd].
  - assert (nth c0 us 0 < nth (S c0) us 0)%Qc by (apply sorted_nth; [apply Ka|lia|lia]). qlra.
  - apply IH; auto. lia.
Qed.
Lemma point_of_put e ts j y : length e = length ts -> j < length ts ->
  point_of e (put j y ts) = put j (fst (nth j e (0, 0)%Qc) + y * width e j)%Qc (point_of e ts).
Proof.
  revert ts j. induction e as [|iv e IH]; intros [|t ts] [|j] L Hj; cbn [length] in *; try lia; [reflexivity|].
  unfold point_of, put in *. cbn [firstn skipn app combine map nth]. f_equal. rewrite IH by lia. reflexivity.
Qed.
Lemma point_of_nth e ts j : length e = length ts -> j < length ts ->
  nth j (point_of e ts) 0%Qc = (fst (nth j e (0, 0)%Qc) + nth j ts 0%Qc * width e j)%Qc.
Proof.
  revert ts j. induction e as [|iv e IH]; intros [|t ts] [|j] L Hj; cbn [length] in *; try lia; [reflexivity|].
  unfold point_of in *. cbn [combine map nth]. apply IH; lia.
Qed.
Lemma point_of_length e ts : length e = length ts -> length (point_of e ts) = length ts.
Proof. intros H. unfold point_of. rewrite map_length, combine_length. lia. Qed.
Lemma below_len ns c : below ns c -> length c = length ns.
Proof. intros H. symmetry. now apply Forall2_len in H. Qed.
Lemma counts_length knots : length (counts knots) = length knots.
Proof. unfold counts. apply map_length. Qed.

(** * Chain rule *)
Lemma Forall_firstn {A} (P : A -> Prop) n l : Forall P l -> Forall P (firstn n l).
Proof. intros F. revert n. induction F; intros [|n]; cbn [firstn]; constructor; auto. Qed.
Lemma Forall_skipn {A} (P : A -> Prop) n l : Forall P l -> Forall P (skipn n l).
Proof. intros F. revert n. induction F; intros [|n]; cbn [skipn]; auto. Qed.
Lemma deriv_affine g lo h t G : (0 < h)%Qc -> is_deriv g (lo + t * h)%Qc G -> is_deriv (fun y => g (lo + y * h)%Qc) t (h * G)%Qc.
Proof.
  intros Hh D e He. destruct (D (e / h)%Qc) as (r & Hr & K). { unfold Qcdiv. apply Qc_mul_pos; auto. now apply Qc_inv_pos. }
  assert (0 < r / h)%Qc as Hr' by (unfold Qcdiv; apply Qc_mul_pos; auto; now apply Qc_inv_pos).
  assert (h <> 0)%Qc as Nh by (intros Z; rewrite Z in Hh; discriminate Hh).
  exists (r / h)%Qc. split; auto. intros y Hy.
  assert (lo + y * h - (lo + t * h) = h * (y - t))%Qc as E by ring.
  assert (qabs (lo + y * h - (lo + t * h)) = h * qabs (y - t))%Qc as Ea. { rewrite E, qabs_mul, qabs_pos_eq by qlra. ring. }
  specialize (K (lo + y * h)%Qc). rewrite Ea in K.
  replace (g (lo + y * h) - g (lo + t * h) - h * G * (y - t))%Qc with (g (lo + y * h) - g (lo + t * h) - G * (lo + y * h - (lo + t * h)))%Qc by ring.
  replace (e * qabs (y - t))%Qc with (e / h * (h * qabs (y - t)))%Qc by (field; exact Nh). apply K.
  replace r with (h * (r / h))%Qc by (field; exact Nh). rewrite !(Qcmult_comm h). now apply Qcmult_lt_compat_r.
Qed.
Lemma unit_put ts j y : j < length ts -> unit_point ts -> (0 < y)%Qc -> (y < 1)%Qc -> unit_point (put j y ts).
Proof.
  intros H U A B. unfold put, unit_point in *. apply Forall_app. split; [now apply Forall_firstn|]. constructor; auto. now apply Forall_skipn.
Qed.
Lemma bezier_inside axes ts : Forall (fun a => exists p, a = BezierAxis p) axes -> length ts = length axes -> unit_point ts -> Forall2 ax_inside axes ts.
Proof.
  intros F. revert ts. induction F as [|a axes [p ->] F IH]; intros [|t ts] L U; try discriminate; constructor; inversion U; subst; auto.
Qed.
Lemma chain_rule b s knots c ts j d :
  sp_wf b -> sp_wf s -> Forall (fun a => exists p, a = BezierAxis p) (sp_axes b) -> length (sp_axes b) = length (sp_axes s) ->
  Forall2 axis_knots (sp_axes s) knots -> below (counts knots) c -> length ts = length (sp_axes s) -> unit_point ts -> j < length ts ->
  sp_denominator b ts <> 0%Qc -> sp_denominator s (point_of (element knots c) ts) <> 0%Qc ->
  (forall ts, length ts = length (sp_axes s) -> unit_point ts -> sp_value b ts d = sp_value s (point_of (element knots c) ts) d) ->
  sp_deriv b j ts d = (sp_deriv s j (point_of (element knots c) ts) d * width (element knots c) j)%Qc.
Proof.
  intros Wb Ws Fb Lb K B Lt U Hj Db Ds V. pose proof (Forall2_len _ _ _ K) as LK. pose proof (below_len _ _ B) as Lc. rewrite counts_length in Lc.
  pose proof (element_length knots c Lc) as Le. set (e := element knots c) in *.
  assert (0 < width e j)%Qc as Hw by (apply (width_pos (sp_axes s) knots c j); auto; lia).
  rewrite Qcmult_comm.
  assert (length ts = length (sp_axes b)) as Ltb by lia.
  pose proof (value_deriv b ts j d Wb (bezier_inside _ _ Fb Ltb U) Hj Db) as D1. apply der_is_deriv in D1.
  assert (length ts = length knots) as Ltk by lia. destruct (element_inside _ _ c ts K B Ltk U) as [I _]. fold e in I.
  pose proof (value_deriv s (point_of e ts) j d Ws I) as D2. rewrite point_of_length in D2 by lia. specialize (D2 Hj Ds). apply der_is_deriv in D2.
  rewrite point_of_nth in D2 by lia. apply deriv_affine in D2; auto.
  assert (0 < nth j ts 0 /\ nth j ts 0 < 1)%Qc as [T0 T1] by (unfold unit_point in U; rewrite Forall_forall in U; apply U, nth_In; auto).
  destruct (two_radii (nth j ts 0%Qc) (1 - nth j ts 0)%Qc) as (r & Hr & L1 & L2); [auto|qlra|].
  eapply deriv_unique; [exact Hr| |exact D1|exact D2].
  intros y Hy. cbv beta. rewrite V.
  - fold e. f_equal. apply point_of_put; lia.
  - rewrite put_length; auto.
  - apply unit_put; auto.
    + destruct (Qclt_le_dec 0 y); auto. exfalso. assert (nth j ts 0 - y <= qabs (y - nth j ts 0))%Qc. { rewrite qabs_neg_eq by qlra. qlra. } qlra.
    + destruct (Qclt_le_dec y 1); auto. exfalso. assert (y - nth j ts 0 <= qabs (y - nth j ts 0))%Qc. { rewrite qabs_pos_eq by qlra. qlra. } qlra.
Qed.

(** * Pieces: weights and coordinates *)
Lemma all_some_in {A} (l : list (option A)) r x : all_some l = Some r -> In x r -> In (Some x) l.
Proof.
  revert r. induction l as [|[y|] l IH]; intros r E H; cbn [all_some] in E; try discriminate.
  - injection E as <-. destruct H.
  - destruct (all_some l) as [r'|] eqn:E'; [|discriminate]. injection E as <-. destruct H as [->|H]; [now left|right; eauto].
Qed.
Lemma pick_in {A} (l : list A) ids r x : pick l ids = Some r -> In x r -> In x l.
Proof.
  unfold pick. intros E H. eapply all_some_in in H; [|exact E]. apply in_map_iff in H as (i & Hi & _). now apply nth_error_In in Hi.
Qed.
Lemma piece_positive eps s bs b : bezier_pieces eps s = Some bs -> In b bs -> positive s -> positive b.
Proof.
  intros E H P. unfold bezier_pieces in E. eapply all_some_in in H; [|exact E]. apply in_map_iff in H as (ids & Hi & _). unfold piece in Hi.
  unfold positive in *. destruct (pick (sp_cps s) ids); [|discriminate]. destruct (sp_weights s) as [ws|].
  - destruct (pick ws ids) as [ws'|] eqn:Ew; [|discriminate]. injection Hi as <-. cbn [sp_weights]. rewrite Forall_forall in *.
    intros w Hw. apply P. eapply pick_in; eauto.
  - now injection Hi as <-.
Qed.
Lemma piece_rows eps s bs b n : bezier_pieces eps s = Some bs -> In b bs -> Forall (fun p => length p = n) (sp_cps s) -> Forall (fun p => length p = n) (sp_cps b).
Proof.
  intros E H P. unfold bezier_pieces in E. eapply all_some_in in H; [|exact E]. apply in_map_iff in H as (ids & Hi & _). unfold piece in Hi.
  rewrite Forall_forall in P. destruct (pick (sp_cps s) ids) as [cps|] eqn:Ec; [|discriminate]. destruct (sp_weights s) as [ws|].
  - destruct (pick ws ids) as [ws'|] eqn:Ew; [|discriminate]. injection Hi as <-. cbn [sp_cps]. apply Forall_map, Forall_forall.
    intros [p w] Hp. apply in_combine_l in Hp. unfold unweighted. rewrite !map_length. apply P. eapply pick_in; eauto.
  - injection Hi as <-. cbn [sp_cps]. apply Forall_forall. intros p Hp. apply P. eapply pick_in; eauto.
Qed.
Lemma denominator_pos s us : sp_wf s -> positive s -> sp_domain s us -> (0 < sp_denominator s us)%Qc.
Proof.
  intros (W & _ & L) P D. unfold sp_denominator, positive in *. destruct (sp_weights s) as [ws|]; [|reflexivity].
  rewrite fold_right_mul_prodn in L. exact (P_Create.functional_pos (sp_axes s) us _ ws W D L eq_refl P).
Qed.
Lemma pos_ne (x : Qc) : (0 < x)%Qc -> x <> 0%Qc.
Proof. intros H Z. rewrite Z in H. discriminate H. Qed.
Lemma patch_point axes um c ts : bezier_form axes um -> below (counts (map fst um)) c -> length ts = length um -> unit_point ts ->
  patch_parameter axes um c ts (point_of (element (map fst um) c) ts).
Proof.
  intros F. revert c ts. induction F as [|a x axes um (p & kv & -> & Hp) F IH]; intros c ts B L U.
  - inversion B; subst. destruct ts; [|discriminate L]. constructor.
  - unfold counts in B. cbn [map] in B. inversion B as [|n c0 ns cs Hc B' E1 E2]; subst. destruct ts as [|t ts]; [discriminate L|]. injection L as L.
    inversion U as [|y l [U1 U2] U']; subst. cbn [map]. rewrite element_cons by lia. unfold point_of. cbn [combine map fst snd]. constructor.
    + unfold local_parameter. repeat split; [lia|now apply Qclt_le_weak|now apply Qclt_le_weak|]. intros ->. now apply Qcle_not_lt in U2; [|apply Qcle_refl].
    + now apply IH.
Qed.

(** * The pieces of a spline: axes, values, derivatives *)
Lemma refined_axes s s' knots : bezier_refinement s s' knots -> Forall2 axis_knots (sp_axes s') knots.
Proof.
  intros (_ & (um & BF & E) & _). rewrite <- E. clear E. induction BF as [|a x axes um (p & kv & -> & H) F IH]; constructor; auto.
  destruct H as (E & SS & L & L2 & M0 & M1 & M). split; auto. exists (snd x). repeat split; auto. apply Forall_forall. intros k Hk.
  apply (In_nth _ _ 0) in Hk as (i & Hi & <-). now apply M.
Qed.
Lemma pieces_of eps s s' knots : (0 < eps)%Qc -> bezier_refinement s s' knots -> Forall2 axis_knots (sp_axes s) knots -> Forall (apart eps) knots ->
  exists bs, bezier_pieces eps s' = Some bs /\ length bs = prodn (counts knots) /\
  forall c, below (counts knots) c -> exists b, nth_error bs (flat_id (counts knots) c) = Some b /\
    sp_wf b /\ positive b /\ Forall (fun a => exists p, a = BezierAxis p) (sp_axes b) /\ length (sp_axes b) = length (sp_axes s) /\
    forall ts d, length ts = length (sp_axes s) -> unit_point ts -> d < dim_of (sp_cps s) ->
      sp_value b ts d = sp_value s (point_of (element knots c) ts) d.
Proof.
  intros He R K A. pose proof R as (Ws & (um & BF & E) & Ed & P & V). pose proof (Forall2_len _ _ _ K) as LK. pose proof (Forall2_len _ _ _ BF) as LU.
  assert (length um = length knots) as Lum by (rewrite <- E; now rewrite map_length).
  assert (patch_counts um = counts knots) as Ec by (rewrite <- E; unfold counts, patch_counts; now rewrite map_map).
  destruct (pieces_spec eps s' um He Ws BF) as (bs & Eb & Lb & H).
  - rewrite <- E in A. clear - A. induction um; cbn in *; constructor; inversion A; subst; auto.
  - unfold positive in P. destruct (sp_weights s'); auto. eapply Forall_impl; [|exact P]. intros w. apply pos_ne.
  - rewrite Ec in *. exists bs. split; [auto|]. split. { now rewrite Lb, fold_right_mul_prodn. }
    intros c Hc. destruct (H c Hc) as (b & Hb & Ea & Wb & _ & Vb). exists b. split; [auto|]. split; [auto|]. split.
    { eapply piece_positive; eauto. now apply nth_error_In in Hb. }
    rewrite Ea. split; [|split; [rewrite map_length; lia|]].
    { apply Forall_map, Forall_forall. intros a _. eauto. }
    intros ts d Lt U Hd. rewrite (Vb ts (point_of (element knots c) ts) d).
    + apply V; auto. apply (element_inside (sp_axes s) knots c ts); auto. lia.
    + rewrite <- E. apply patch_point; auto; [now rewrite E|lia].
Qed.
Lemma pieces_deriv eps s s' knots bs : (0 < eps)%Qc -> bezier_refinement s s' knots -> Forall2 axis_knots (sp_axes s) knots -> Forall (apart eps) knots ->
  sp_wf s -> positive s -> bezier_pieces eps s' = Some bs ->
  length bs = prodn (counts knots) /\
  forall c, below (counts knots) c -> exists b, nth_error bs (flat_id (counts knots) c) = Some b /\
    forall ts j d, length ts = length (sp_axes s) -> unit_point ts -> j < length ts -> d < dim_of (sp_cps s) ->
      sp_deriv b j ts d = (sp_deriv s j (point_of (element knots c) ts) d * width (element knots c) j)%Qc.
Proof.
  intros He R K A W P Eb. destruct (pieces_of eps s s' knots He R K A) as (bs' & Eb' & Lb & H). rewrite Eb in Eb'. injection Eb' as <-.
  split; auto. intros c Hc. destruct (H c Hc) as (b & Hb & Wb & Pb & Fb & La & V). exists b. split; auto.
  pose proof (Forall2_len _ _ _ K) as LK.
  intros ts j d Lt U Hj Hd. apply chain_rule; auto.
  - apply pos_ne, denominator_pos; auto. assert (length ts = length (sp_axes b)) as L by lia. clear - Fb L U.
    unfold sp_domain. revert ts L U. induction Fb as [|a axes [p ->] F IH]; intros [|t ts] L U; try discriminate; constructor; inversion U as [|x l [X Y]]; subst; auto.
    split; cbn; now apply Qclt_le_weak.
  - apply pos_ne, denominator_pos; auto. apply (element_inside (sp_axes s) knots c ts); auto. lia.
Qed.

(** * Rules *)
Lemma cp_block_map {A B} (f : A -> B) arrays : cp_block (map (map f) arrays) = map (map f) (cp_block arrays).
Proof.
  induction arrays as [|a arrays IH]; [reflexivity|]. cbn [map cp_block]. rewrite IH. induction a as [|x a IHa]; [reflexivity|].
  cbn [map flat_map]. rewrite map_app, IHa, !map_map. reflexivity.
Qed.
Lemma product_block rules : product_rule rules = map (fun row => (map fst row, qprod (map snd row))) (cp_block rules).
Proof.
  induction rules as [|r rules IH]; [reflexivity|]. cbn [product_rule cp_block]. rewrite IH. clear IH. induction r as [|x r IHr]; [reflexivity|].
  cbn [flat_map]. rewrite map_app, IHr, !map_map. reflexivity.
Qed.
Lemma cp_block_rev {A} (d : A) (arrays : list (list A)) : arrays <> [] -> Permutation (map (@rev A) (cp_block (rev arrays))) (cp_block arrays).
Proof.
  intros N. pose proof (cartesian_product_spec d arrays N) as E. unfold cartesian_product in E. destruct arrays as [|a0 arrays0] eqn:Ea; [contradiction|].
  rewrite <- Ea in *. injection E as E. rewrite E, (cp_block_spec d arrays). apply Permutation_map. symmetry. apply c_f_perm.
Qed.
Lemma combine_map2 {A B C} (f : A -> B) (g : A -> C) l : combine (map f l) (map g l) = map (fun x => (f x, g x)) l.
Proof. induction l; cbn; f_equal; auto. Qed.
Lemma combine_split_fst {A B} (l : list A) (l' : list B) : length l' = length l -> map fst (combine l l') = l.
Proof. revert l'. induction l as [|a l IH]; intros [|b l'] H; try discriminate; cbn; f_equal. apply IH. now injection H. Qed.
Lemma combine_split_snd {A B} (l : list A) (l' : list B) : length l' = length l -> map snd (combine l l') = l'.
Proof. revert l'. induction l as [|a l IH]; intros [|b l'] H; try discriminate; cbn; f_equal. apply IH. now injection H. Qed.
Lemma quadrature_rule O s orders quad : gaussian (g_leggauss O) -> sp_axes s <> [] -> quadrature O s orders = Some quad ->
  exists os, orders_of s orders os /\ Permutation quad (product_rule (map (unit_rule (g_leggauss O)) os)).
Proof.
  intros G Hne. unfold quadrature. destruct (quad_orders s orders) as [os|] eqn:Eo; [|discriminate]. intros E. exists os.
  pose proof (orders_spec s orders os Eo) as [Lo Fo]. split.
  - split; auto. unfold quad_orders in Eo. destruct orders as [zs|].
    + destruct ((length zs =? length (sp_axes s)) && forallb (fun o => (0 <? o)%Z) zs) eqn:Ez; [|discriminate]. injection Eo as <-. split; auto.
      apply andb_prop in Ez as [_ Ez]. rewrite forallb_forall in Ez. rewrite map_map. rewrite <- (map_id zs) at 2. apply map_ext_in.
      intros z Hz. apply Ez in Hz. apply Z.ltb_lt in Hz. apply Z2Nat.id. lia.
    + injection Eo as <-. clear. generalize (length (sp_axes s)) as n. intros n. induction (sp_axes s) as [|a axes IH]; constructor; auto. cbv zeta.
      set (e := ax_degree a * n + 1 + match sp_weights s with Some _ => 2 | None => 0 end). pose proof (Nat.div_mod_eq (e + 1 + 1) 2).
      pose proof (Nat.mod_upper_bound (e + 1 + 1) 2 ltac:(lia)). assert (1 <= e) by (unfold e; lia). lia.
  - set (R := map (unit_rule (g_leggauss O)) os).
    assert (map (fun o => map (fun x => x * qc 1 2 + qc 1 2)%Qc (fst (g_leggauss O o))) os = map (map fst) R) as EP.
    { unfold R. rewrite map_map. apply map_ext_in. intros o Ho. rewrite Forall_forall in Fo. destruct (G o (Fo o Ho)) as (_ & L & _). unfold unit_rule.
      rewrite map_map. cbn [fst]. rewrite <- (map_map fst (fun x => (x + 1) * qc 1 2)%Qc). rewrite combine_split_fst by auto. apply map_ext. intros; ring. }
    assert (map (fun o => map (fun w => w * qc 1 2)%Qc (snd (g_leggauss O o))) os = map (map snd) R) as EW.
    { unfold R. rewrite map_map. apply map_ext_in. intros o Ho. rewrite Forall_forall in Fo. destruct (G o (Fo o Ho)) as (_ & L & _). unfold unit_rule.
      rewrite map_map. cbn [snd]. rewrite <- (map_map snd (fun x => x * qc 1 2)%Qc). now rewrite combine_split_snd by auto. }
    rewrite EP, EW in E.
    assert (R <> []) as NR. { unfold R. intros Z. apply map_eq_nil in Z. subst os. apply Hne. now destruct (sp_axes s). }
    unfold cartesian_product in E. destruct R as [|r0 R0] eqn:ER; [contradiction|]. rewrite <- ER in *. 
    destruct (map (map fst) R) as [|x0 X0] eqn:EX; [rewrite ER in EX; discriminate EX|]. rewrite <- EX in E.
    destruct (map (map snd) R) as [|y0 Y0] eqn:EY; [rewrite ER in EY; discriminate EY|]. rewrite <- EY in E. injection E as <-.
    rewrite <- !map_rev, !cp_block_map, !map_map, combine_map2, product_block.
    rewrite <- (cp_block_rev (0, 0)%Qc R NR), map_map. match goal with |- Permutation ?a ?b => replace b with a; [reflexivity|apply map_ext; intros row] end.
    cbv beta. unfold qprod. now rewrite !map_rev.
Qed.
Lemma qsum_quad_perm (F : list Qc * Qc -> Qc) q q' : Permutation q q' -> qsum (map F q) = qsum (map F q').
Proof. intros H. apply qsum_perm. now apply Permutation_map. Qed.
Lemma composite_perm q q' knots F : Permutation q q' -> composite q knots F = composite q' knots F.
Proof. intros H. unfold composite. apply qsum_ext. intros e _. f_equal. now apply qsum_quad_perm. Qed.
Lemma unscaled_perm q q' knots F : Permutation q q' -> unscaled q knots F = unscaled q' knots F.
Proof. intros H. unfold unscaled. apply qsum_ext. intros e _. now apply qsum_quad_perm. Qed.
Lemma below_iff ns c : below ns c <-> In c (f_indices ns).
Proof. rewrite in_f_indices. split; [apply below_digits|]. intros V. induction V; constructor; auto. Qed.

(** * Measure *)
Lemma measure_ext sqrt n dim J J' : (forall d j, d < dim -> j < n -> J d j = J' d j) -> n <= dim -> measure sqrt n dim J = measure sqrt n dim J'.
Proof.
  intros H L. unfold measure. destruct (Nat.eqb_spec dim n) as [E|E].
  - apply det_ext. intros i j Hi Hj. apply H; lia.
  - f_equal. apply det_ext. intros i j Hi Hj. apply qsum_ext. intros d Hd. apply in_seq in Hd. rewrite !H by lia. reflexivity.
Qed.
Lemma qprod_nonneg {A} (f : A -> Qc) l : (forall x, In x l -> (0 <= f x)%Qc) -> (0 <= qprod (map f l))%Qc.
Proof.
  induction l as [|x l IH]; intros H; cbn [map qprod fold_right]; [discriminate|]. apply Qc_mul_nonneg; [apply H; now left|apply IH; intros; apply H; now right].
Qed.
Lemma qprod_ones {A} (l : list A) : qprod (map (fun _ => 1%Qc) l) = 1%Qc.
Proof. induction l as [|x l IH]; [reflexivity|]. cbn [map qprod fold_right]. change (fold_right Qcmult 1%Qc) with qprod. rewrite IH. reflexivity. Qed.
Lemma measure_scale sqrt n dim J h : rooting sqrt -> (forall j, j < n -> (0 <= h j)%Qc) ->
  measure sqrt n dim (fun d j => J d j * h j)%Qc = (qprod (map h (seq 0 n)) * measure sqrt n dim J)%Qc.
Proof.
  intros Hr Hh. unfold measure. destruct (Nat.eqb_spec dim n) as [E|E].
  - rewrite (det_ext n (fun d j => J d j * h j)%Qc (fun d j => 1 * J d j * h j)%Qc) by (intros; ring).
    rewrite (det_scale n (fun _ => 1%Qc)). rewrite qprod_ones. ring.
  - rewrite <- (proj2 Hr).
    + f_equal. rewrite <- det_scale. apply det_ext. intros i k Hi Hk. rewrite <- qsum_map_mul_l, <- qsum_map_mul_r. apply qsum_ext. intros d _. ring.
    + apply qprod_nonneg. intros j Hj. apply in_seq in Hj. apply Hh. lia.
Qed.
Lemma integral_measure_spec O s meas : integral_measure O s = Some meas ->
  length (sp_axes s) <= dim_of (sp_cps s) /\
  forall b u, meas b u = measure (g_sqrt O) (length (sp_axes s)) (dim_of (sp_cps s)) (fun d j => sp_deriv b j u d).
Proof.
  unfold integral_measure, measure. destruct (Nat.eqb_spec (dim_of (sp_cps s)) (length (sp_axes s))) as [E|E].
  - intros [= <-]. split; [lia|]. reflexivity.
  - destruct (Nat.ltb_spec (length (sp_axes s)) (dim_of (sp_cps s))); [|discriminate]. intros [= <-]. split; [lia|]. reflexivity.
Qed.
Lemma integral_measure_some O s : length (sp_axes s) <= dim_of (sp_cps s) -> exists meas, integral_measure O s = Some meas.
Proof.
  intros H. unfold integral_measure. destruct (Nat.eqb_spec (dim_of (sp_cps s)) (length (sp_axes s))); [eauto|].
  destruct (Nat.ltb_spec (length (sp_axes s)) (dim_of (sp_cps s))); [eauto|lia].
Qed.
Lemma deriv_is s u J : sp_wf s -> positive s -> Forall2 ax_inside (sp_axes s) u -> sp_domain s u -> jacobian s u J ->
  forall d j, d < dim_of (sp_cps s) -> j < length (sp_axes s) -> sp_deriv s j u d = J d j.
Proof.
  intros W P I D H d j Hd Hj. pose proof (Forall2_len _ _ _ I) as L. specialize (H d j Hd Hj).
  pose proof (value_deriv s u j d W I ltac:(lia) (pos_ne _ (denominator_pos s u W P D))) as H'. apply der_is_deriv in H'.
  eapply (deriv_unique _ _ _ _ _ 1%Qc); [reflexivity| |exact H'|exact H]. reflexivity.
Qed.

(** * Volume *)
Lemma bezier_knots_trivial s knots : bezier_axes s -> Forall2 axis_knots (sp_axes s) knots -> knots = repeat [0; 1]%Qc (length (sp_axes s)).
Proof.
  unfold bezier_axes. intros F K. induction K as [|a us axes knots Ka K IH]; [reflexivity|]. inversion F as [|? ? [p ->] F']; subst.
  destruct Ka as [_ ->]. cbn [length repeat]. f_equal. auto.
Qed.
Lemma elements_trivial n : elements (repeat [0; 1]%Qc n) = [repeat (0, 1)%Qc n].
Proof. induction n as [|n IH]; [reflexivity|]. cbn [repeat elements combine tl flat_map]. rewrite IH. reflexivity. Qed.
Lemma point_trivial n t : length t = n -> point_of (repeat (0, 1)%Qc n) t = t.
Proof. intros <-. induction t as [|x t IH]; [reflexivity|]. unfold point_of in *. cbn [length repeat combine map fst snd]. rewrite IH. f_equal. ring. Qed.
Lemma size_trivial n : size_of (repeat (0, 1)%Qc n) = 1%Qc.
Proof. induction n as [|n IH]; [reflexivity|]. unfold size_of in *. cbn [repeat fold_right fst snd]. rewrite IH. ring. Qed.
Lemma unscaled_trivial quad n F : (forall tw, In tw quad -> length (fst tw) = n) ->
  unscaled quad (repeat [0; 1]%Qc n) F = qsum (map (fun tw => F (fst tw) * snd tw)%Qc quad).
Proof.
  intros H. unfold unscaled. rewrite elements_trivial. cbn [map qsum fold_right]. rewrite Qcplus_0_r. apply qsum_ext. intros tw Ht. now rewrite point_trivial by auto.
Qed.
Lemma composite_trivial quad n F : (forall tw, In tw quad -> length (fst tw) = n) ->
  composite quad (repeat [0; 1]%Qc n) F = qsum (map (fun tw => F (fst tw) * snd tw)%Qc quad).
Proof.
  intros H. unfold composite. rewrite elements_trivial. cbn [map qsum fold_right]. rewrite Qcplus_0_r, size_trivial, Qcmult_1_l. apply qsum_ext.
  intros tw Ht. now rewrite point_trivial by auto.
Qed.
Lemma has_knots_bezier s : bezier_axes s -> sp_axes s <> [] -> has_knot_vectors s = false.
Proof. unfold bezier_axes, has_knot_vectors. intros F N. destruct F as [|a l [p ->] F]; [contradiction|reflexivity]. Qed.
Lemma has_knots_knotted s : knotted s -> has_knot_vectors s = true.
Proof. unfold knotted, has_knot_vectors. intros F. destruct F as [|[p|p kv] l H F]; [reflexivity|contradiction|reflexivity]. Qed.

Lemma volume_spec O eps s orders knots J : gaussian (g_leggauss O) -> rooting (g_sqrt O) -> (0 < eps)%Qc ->
  sp_wf s -> positive s -> sp_axes s <> [] -> length (sp_axes s) <= dim_of (sp_cps s) ->
  Forall2 axis_knots (sp_axes s) knots -> Forall (apart eps) knots ->
  (bezier_axes s \/ knotted s /\ bezier_refinement s (g_required O s) knots) ->
  derivatives s J ->
  forall quad, quadrature O s orders = Some quad ->
  volume O eps s orders = Some (composite quad knots (fun u => measure (g_sqrt O) (length (sp_axes s)) (dim_of (sp_cps s)) (J u))).
Proof.
  intros G R He W P Ne Ld K A Hc HJ quad Eq. unfold volume. destruct (integral_measure_some O s Ld) as (meas & Em). rewrite Em, Eq.
  destruct (integral_measure_spec O s meas Em) as [_ M]. pose proof (quadrature_good O s orders quad G Ne Eq) as (_ & Hq & _).
  pose proof (Forall2_len _ _ _ K) as LK.
  assert (forall c t, below (counts knots) c -> length t = length (sp_axes s) -> unit_point t ->
    forall d j, d < dim_of (sp_cps s) -> j < length (sp_axes s) -> sp_deriv s j (point_of (element knots c) t) d = J (point_of (element knots c) t) d j) as DJ.
  { intros c t Hc' Lt U. assert (length t = length knots) as Ltk by lia. destruct (element_inside _ _ c t K Hc' Ltk U) as [I D].
    intros d j Hd Hj. apply deriv_is; auto. }
  destruct Hc as [Hb|[Hk Hr]].
  - rewrite has_knots_bezier by auto. f_equal. pose proof (bezier_knots_trivial s knots Hb K) as Ek. rewrite Ek, composite_trivial by apply Hq. apply qsum_ext.
    intros tw Ht. rewrite M. f_equal. destruct (Hq tw Ht) as [Lt U]. apply measure_ext; auto. intros d j Hd Hj.
    apply deriv_is; auto.
    + apply bezier_inside; auto.
    + unfold sp_domain. unfold bezier_axes in Hb. clear - Hb Lt U. revert Lt U. generalize (fst tw) as t. induction Hb as [|a axes [p ->] F IH]; intros [|t ts] L U; try discriminate; constructor; inversion U as [|x l [X Y]]; subst; auto.
      split; cbn; now apply Qclt_le_weak.
    + apply HJ. apply bezier_inside; auto.
  - rewrite has_knots_knotted by auto. unfold beziers. destruct (pieces_of eps s _ knots He Hr K A) as (bs & Eb & _). rewrite Eb. cbn [option_map]. f_equal.
    destruct (pieces_deriv eps s _ knots bs He Hr K A W P Eb) as [Lb H].
    unfold composite. rewrite elements_sum. apply pieces_sum; auto. intros c Hc. destruct (H c Hc) as (b & Hb & D). exists b. split; auto.
    rewrite <- qsum_map_mul_l. apply qsum_ext. intros tw Ht. destruct (Hq tw Ht) as [Lt U]. rewrite M.
    pose proof (below_len _ _ Hc) as Lc. rewrite counts_length in Lc.
    rewrite (measure_ext _ _ _ _ (fun d j => J (point_of (element knots c) (fst tw)) d j * width (element knots c) j)%Qc); auto.
    + rewrite measure_scale; auto.
      * rewrite size_prod, element_length, <- LK by auto. ring.
      * intros j Hj. apply Qclt_le_weak. apply (width_pos (sp_axes s)); auto. lia.
    + intros d j Hd Hj. rewrite D by (auto; lia). now rewrite (DJ c) by auto.
Qed.

(** * Affine geometry *)
Lemma elements_size knots : Forall (fun us => us <> []) knots ->
  qsum (map size_of (elements knots)) = qprod (map (fun us => nth (length us - 1) us 0 - nth 0 us 0)%Qc knots).
Proof.
  induction 1 as [|us knots Hu H IH]; [reflexivity|]. cbn [elements]. rewrite qsum_flat_map. cbn [map qprod fold_right]. change (fold_right Qcmult 1%Qc) with qprod.
  rewrite <- IH. transitivity (qsum (map (fun iv : Qc * Qc => (snd iv - fst iv) * qsum (map size_of (elements knots))) (combine us (tl us))))%Qc.
  { apply qsum_ext. intros iv _. rewrite map_map. unfold size_of at 1. cbn [fold_right]. now rewrite qsum_map_mul_l. }
  rewrite qsum_map_mul_r. f_equal. clear - Hu. induction us as [|x us IH]; [contradiction|]. destruct us as [|y us]; [cbn; ring|].
  specialize (IH ltac:(discriminate)). cbn [tl] in *. change (combine (x :: y :: us) (y :: us)) with ((x, y) :: combine (y :: us) us).
  set (l := combine (y :: us) us) in *. clearbody l. cbn [map qsum]. rewrite IH. cbn [fst snd length].
  replace (S (S (length us)) - 1) with (S (length us)) by lia. replace (S (length us) - 1) with (length us) by lia. cbn [nth]. ring.
Qed.
Lemma composite_const quad knots m F : qsum (map snd quad) = 1%Qc -> Forall (fun us => us <> []) knots ->
  (forall e tw, In e (elements knots) -> In tw quad -> F (point_of e (fst tw)) = m) ->
  composite quad knots F = (m * qprod (map (fun us => nth (length us - 1) us 0 - nth 0 us 0) knots))%Qc.
Proof.
  intros Hq Hk H. unfold composite. rewrite <- elements_size by auto. rewrite <- qsum_map_mul_l. apply qsum_ext. intros e He.
  rewrite (qsum_ext _ (fun tw : list Qc * Qc => m * snd tw)%Qc) by (intros tw Ht; now rewrite H by auto). rewrite qsum_map_mul_l, Hq. ring.
Qed.
Lemma put_nth j k x us : j < length us -> nth k (put j x us) 0%Qc = if k =? j then x else nth k us 0%Qc.
Proof.
  revert j k. induction us as [|u us IH]; intros [|j] [|k] H; cbn [length] in H; try lia; unfold put in *; cbn [firstn skipn app nth]; auto.
  rewrite IH by lia. reflexivity.
Qed.
Lemma inside_near a u : ax_inside a u -> ax_wf a -> exists r, (0 < r)%Qc /\ forall y, (qabs (y - u) < r)%Qc -> ax_domain a y.
Proof.
  intros I W. assert (exists lo hi, (lo < u)%Qc /\ (u < hi)%Qc /\ (ax_lower a <= lo)%Qc /\ (hi <= ax_upper a)%Qc) as (lo & hi & A & B & C & D).
  { destruct a as [p|p kv]; cbn [ax_inside] in I.
    - exists 0%Qc, 1%Qc. destruct I. repeat split; auto; apply Qcle_refl.
    - destruct I as (s & H1 & H2 & H3 & H4). exists (kn kv s), (kn kv (S s)). repeat split; auto; cbn [ax_lower ax_upper];
        cbn [ax_wf] in W; apply kn_mono; try apply W; lia. }
  destruct (two_radii (u - lo)%Qc (hi - u)%Qc) as (r & Hr & L1 & L2); [qlra|qlra|]. exists r. split; auto. intros y Hy. split.
  - destruct (Qclt_le_dec y lo) as [X|X]; [|qlra]. exfalso. assert (u - y <= qabs (y - u))%Qc by (rewrite qabs_neg_eq by qlra; qlra). qlra.
  - destruct (Qclt_le_dec hi y) as [X|X]; [|qlra]. exfalso. assert (y - u <= qabs (y - u))%Qc by (rewrite qabs_pos_eq by qlra; qlra). qlra.
Qed.
Lemma domain_put axes us j y : Forall2 ax_domain axes us -> j < length us -> ax_domain (nth j axes (BezierAxis 0)) y -> Forall2 ax_domain axes (put j y us).
Proof.
  intros F. revert j. induction F as [|a u axes us H F IH]; intros [|j] L D; cbn [length] in L; try lia; unfold put in *; cbn [firstn skipn app nth] in *; constructor; auto.
  apply IH; auto. lia.
Qed.
Lemma inside_domain a u : ax_wf a -> ax_inside a u -> ax_domain a u.
Proof. intros W I. destruct (inside_near a u I W) as (r & Hr & H). apply H. replace (u - u)%Qc with 0%Qc by ring. exact Hr. Qed.
Lemma affine_jacobian s b a : sp_wf s -> affine s b a -> derivatives s (fun _ => a).
Proof.
  intros W A u I d j Hd Hj. pose proof (Forall2_len _ _ _ I) as L.
  assert (sp_domain s u) as D. { destruct W as [W _]. unfold sp_domain. clear - W I. induction I as [|x y axes us H I IH]; constructor; inversion W; subst; auto. now apply inside_domain. }
  assert (ax_inside (nth j (sp_axes s) (BezierAxis 0)) (nth j u 0%Qc)) as Ij.
  { clear - I Hj. revert j Hj. induction I as [|x y axes us H I IH]; intros [|j] Hj; cbn [length nth] in *; try lia; auto. apply IH. lia. }
  destruct (inside_near _ _ Ij) as (r & Hr & Hn). { destruct W as [W _]. rewrite Forall_forall in W. apply W, nth_In; auto. }
  assert (forall y, (qabs (y - nth j u 0) < r)%Qc ->
     sp_value s (put j y u) d = (sp_value s u d + a d j * (y - nth j u 0))%Qc) as V.
  { intros y Hy. rewrite (A (put j y u) d), (A u d) by (auto; apply domain_put; auto; lia).
    assert (qsum (map (fun k => a d k * nth k (put j y u) 0) (seq 0 (length (sp_axes s)))) -
            qsum (map (fun k => a d k * nth k u 0) (seq 0 (length (sp_axes s)))) = a d j * (y - nth j u 0))%Qc as E.
    { rewrite <- qsum_map_sub. rewrite (qsum_single _ _ j).
      - rewrite put_nth, Nat.eqb_refl by lia. ring.
      - lia.
      - intros k _ Hk. rewrite put_nth by lia. destruct (Nat.eqb_spec k j); [contradiction|]. ring. }
    rewrite <- E. ring. }
  intros e He. exists r. split; auto. intros y Hy. rewrite V by auto. rewrite put_same by lia.
  replace (sp_value s u d + a d j * (y - nth j u 0) - sp_value s u d - a d j * (y - nth j u 0))%Qc with 0%Qc by ring.
  replace (qabs 0) with 0%Qc by reflexivity. apply Qc_mul_nonneg; [now apply Qclt_le_weak|apply qabs_nonneg].
Qed.
