(** Proofs about in-place edits of control points and weights. *)
From Coq Require Import List Arith ZArith Bool QArith Qcanon Lia.
From Verif Require Import Base BaseRadix BaseQc S_Grid S_Spline P_Spline S_Value M_Numpy M_Coords S_Coords.
Import ListNotations.
Local Open Scope nat_scope.

(** * Storage of the core *)

Definition weighted (rat : bool) (w : Qc) (row : list Qc) : list Qc :=
  if rat then scale w row else row.

Definition stores (c : core) (a : list (list Qc)) (w : list Qc) : Prop :=
  length (c_coords c) = length a /\
  (forall k, k < length a ->
     nth k (c_coords c) [] = weighted (c_rational c) (nth k w 0%Qc) (nth k a [])) /\
  (c_rational c = true ->
     c_weights c = w /\ length w = length a /\ Forall (fun x => x <> 0%Qc) w).

Lemma scale_scale u v row : scale u (scale v row) = scale (v * u)%Qc row.
Proof. unfold scale. rewrite map_map. apply map_ext. intros. ring. Qed.
Lemma scale_1 row : scale 1%Qc row = row.
Proof. unfold scale. rewrite <- (map_id row) at 2. apply map_ext. intros. ring. Qed.
Lemma scale_inv w row : w <> 0%Qc -> scale (1 / w)%Qc (scale w row) = row.
Proof. intros. rewrite scale_scale. replace (w * (1 / w))%Qc with 1%Qc by (field; auto). apply scale_1. Qed.
Lemma inv_scale w row : w <> 0%Qc -> scale w (scale (1 / w)%Qc row) = row.
Proof. intros. rewrite scale_scale. replace (1 / w * w)%Qc with 1%Qc by (field; auto). apply scale_1. Qed.

Lemma nth_reported ws cs k : length ws = length cs -> k < length cs ->
  nth k (map (fun wr => scale (1 / fst wr)%Qc (snd wr)) (combine ws cs)) [] =
  scale (1 / nth k ws 0)%Qc (nth k cs []).
Proof.
  intros L Hk.
  rewrite (nth_indep _ [] ((fun wr => scale (1 / fst wr)%Qc (snd wr)) (0%Qc, []))).
  - rewrite (map_nth (fun wr : Qc * list Qc => scale (1 / fst wr)%Qc (snd wr))).
    rewrite combine_nth by auto. reflexivity.
  - rewrite map_length, combine_length. lia.
Qed.

Lemma holds_stores c a w : holds c a w <-> stores c a w.
Proof.
  unfold holds, stores, reported_cps. destruct (c_rational c) eqn:R; cbn [weighted].
  - split.
    + intros [E [L H]]. destruct (H eq_refl) as [Hw [Lw Fw]]. split; [exact L|]. split; [|auto].
      intros k Hk. rewrite <- E, nth_reported by (rewrite ?Hw; lia). rewrite Hw.
      rewrite inv_scale; [reflexivity|]. rewrite Forall_forall in Fw. apply Fw, nth_In. lia.
    + intros [L [E H]]. destruct (H eq_refl) as [Hw [Lw Fw]]. split; [|auto].
      apply (nth_ext _ _ [] []).
      * rewrite map_length, combine_length, Hw. lia.
      * intros k Hk. rewrite map_length, combine_length, Hw in Hk.
        rewrite nth_reported by (rewrite ?Hw; lia). rewrite E, Hw by lia.
        apply scale_inv. rewrite Forall_forall in Fw. apply Fw, nth_In. lia.
  - split.
    + intros [E [L H]]. split; [exact L|]. split; [|auto]. intros k _. rewrite E. reflexivity.
    + intros [L [E H]]. split; [|auto]. apply (nth_ext _ _ [] []); [exact L|].
      intros k Hk. apply E. lia.
Qed.

(** * Rows *)

Lemma wrap_id_spec n i k : wrap_id n i = Some k <->
  k < n /\ (i = Z.of_nat k \/ i = (Z.of_nat k - Z.of_nat n)%Z).
Proof.
  unfold wrap_id. destruct (Z.ltb_spec i 0).
  - destruct (Z.ltb_spec (i + Z.of_nat n) 0); cbn; [split; [discriminate|lia]|].
    destruct (Z.leb_spec (Z.of_nat n) (i + Z.of_nat n)); cbn; [split; [discriminate|lia]|].
    split; [intros [= <-]; lia|]. intros [Hk [E|E]]; [lia|]. f_equal. lia.
  - destruct (Z.ltb_spec i 0); [lia|]. cbn.
    destruct (Z.leb_spec (Z.of_nat n) i); cbn; [split; [discriminate|lia]|].
    split; [intros [= <-]; lia|]. intros [Hk [E|E]]; [|lia]. f_equal. lia.
Qed.
Lemma wrap_id_some n i : (- Z.of_nat n <= i < Z.of_nat n)%Z -> exists k, wrap_id n i = Some k.
Proof.
  intros H. destruct (Z.ltb_spec i 0).
  - exists (Z.to_nat (i + Z.of_nat n)). apply wrap_id_spec. lia.
  - exists (Z.to_nat i). apply wrap_id_spec. lia.
Qed.
Lemma wrap_id_none n i : ~ (- Z.of_nat n <= i < Z.of_nat n)%Z -> wrap_id n i = None.
Proof.
  intros H. destruct (wrap_id n i) as [k|] eqn:E; [|reflexivity].
  apply wrap_id_spec in E. lia.
Qed.
Lemma py_index_wrap n i : py_index n i = wrap_id n i.
Proof.
  unfold py_index, wrap_id. destruct (Z.ltb_spec i 0); cbn zeta.
  - destruct (Z.leb_spec 0 (i + Z.of_nat n)), (Z.ltb_spec (i + Z.of_nat n) (Z.of_nat n)),
      (Z.ltb_spec (i + Z.of_nat n) 0), (Z.leb_spec (Z.of_nat n) (i + Z.of_nat n)); cbn; try lia; reflexivity.
  - destruct (Z.leb_spec 0 i), (Z.ltb_spec i (Z.of_nat n)), (Z.ltb_spec i 0), (Z.leb_spec (Z.of_nat n) i);
      cbn; try lia; reflexivity.
Qed.

Lemma cp_put_len c k v : length (c_coords (cp_put c k v)) = length (c_coords c).
Proof. apply set_nth_length. Qed.
Lemma cp_put_nth c k v j : k < length (c_coords c) ->
  nth j (c_coords (cp_put c k v)) [] =
  if j =? k then weighted (c_rational c) (nth k (c_weights c) 0%Qc) v else nth j (c_coords c) [].
Proof. intros H. cbn. rewrite set_nth_nth by auto. reflexivity. Qed.

(** Rows of the core after [cp_sync_rows]. *)
Lemma sync_rows_spec ids c values n : length (c_coords c) = n ->
  (forall i, In i ids -> (- Z.of_nat n <= i < Z.of_nat n)%Z) ->
  exists c', cp_sync_rows c ids values = Some c' /\
    c_rational c' = c_rational c /\ c_weights c' = c_weights c /\ length (c_coords c') = n /\
    forall j, j < n ->
      ((exists i, In i ids /\ wrap_id n i = Some j) /\
       nth j (c_coords c') [] =
         weighted (c_rational c) (nth j (c_weights c) 0%Qc) (nth j values [])) \/
      (~ (exists i, In i ids /\ wrap_id n i = Some j) /\
       nth j (c_coords c') [] = nth j (c_coords c) []).
Proof.
  revert c; induction ids as [|i ids IH]; intros c L R; cbn [cp_sync_rows].
  - exists c. repeat (split; [auto; fail|]). intros j Hj. right. split; [|reflexivity].
    intros [i [[] _]].
  - rewrite L. destruct (wrap_id_some n i) as [k Ek]; [apply R; now left|]. rewrite Ek.
    assert (Hk : k < n) by (apply wrap_id_spec in Ek; tauto).
    destruct (IH (cp_put c k (nth k values []))) as [c' [E [Er [Ew [Lc H]]]]].
    { rewrite cp_put_len. exact L. }
    { intros x Hx. apply R. now right. }
    exists c'. split; [exact E|]. cbn [cp_put c_rational c_weights] in Er, Ew.
    split; [exact Er|]. split; [exact Ew|]. split; [exact Lc|]. intros j Hj.
    destruct (H j Hj) as [[[x [Hx Ex]] G]|[N G]].
    + left. split; [exists x; split; [now right|exact Ex]|]. exact G.
    + rewrite cp_put_nth in G by lia. destruct (Nat.eqb_spec j k) as [->|Hne].
      * left. split; [exists i; split; [now left|exact Ek]|]. exact G.
      * right. split; [|exact G]. intros [x [[<-|Hx] Ex]]; [congruence|]. apply N. eauto.
Qed.
(** An id outside the array always ends outside. *)
Lemma sync_rows_outside ids c values i : In i ids ->
  ~ (- Z.of_nat (length (c_coords c)) <= i < Z.of_nat (length (c_coords c)))%Z ->
  cp_sync_rows c ids values = None.
Proof.
  revert c; induction ids as [|x ids IH]; intros c Hi N; [easy|]. cbn.
  destruct (wrap_id (length (c_coords c)) x) as [k|] eqn:E; [|reflexivity].
  destruct Hi as [->|Hi]; [rewrite wrap_id_none in E by auto; discriminate|].
  apply IH; [auto|]. rewrite cp_put_len. exact N.
Qed.

(** * numpy writes *)

Lemma numpy_set_gen {A} (rows : list nat) (f : nat -> A -> A) (a : list A) (a' : list A) :
  a' = map (fun ir => if existsb (Nat.eqb (fst ir)) rows then f (fst ir) (snd ir) else snd ir)
           (combine (seq 0 (length a)) a) ->
  edited rows f a a'.
Proof.
  intros ->. split.
  - rewrite map_length, combine_length, seq_length. lia.
  - intros i d Hi.
    set (g := fun ir : nat * A => if existsb (Nat.eqb (fst ir)) rows then f (fst ir) (snd ir) else snd ir).
    assert (E : nth i (map g (combine (seq 0 (length a)) a)) d = g (i, nth i a d)).
    { rewrite (nth_indep _ d (g (0, d))) by (rewrite map_length, combine_length, seq_length; lia).
      rewrite map_nth, combine_nth by (rewrite seq_length; reflexivity).
      rewrite seq_nth by auto. reflexivity. }
    rewrite E. unfold g. cbn [fst snd]. split; intros H.
    + replace (existsb (Nat.eqb i) rows) with true; [reflexivity|]. symmetry.
      apply existsb_exists. exists i. split; [exact H|apply Nat.eqb_refl].
    + replace (existsb (Nat.eqb i) rows) with false; [reflexivity|]. symmetry.
      apply not_true_is_false. intros X. apply existsb_exists in X. destruct X as [j [Hj X]].
      apply Nat.eqb_eq in X. subst. auto.
Qed.
Lemma numpy_set_edited rows f a : edited rows f a (numpy_set rows f a).
Proof. now apply numpy_set_gen. Qed.
Lemma numpy_set_w_edited rows f w : edited rows f w (numpy_set_w rows f w).
Proof. now apply numpy_set_gen. Qed.

(** Mirroring all edited rows keeps core and array together. *)
Lemma sync_edited c a w rows f a' ids : stores c a w -> edited rows f a a' ->
  (forall i, In i ids -> (- Z.of_nat (length a) <= i < Z.of_nat (length a))%Z) ->
  (forall j, j < length a -> In j rows -> exists i, In i ids /\ wrap_id (length a) i = Some j) ->
  exists c', cp_sync_rows c ids a' = Some c' /\ c_rational c' = c_rational c /\ stores c' a' w.
Proof.
  intros [L [St W]] [La Ed] R Cov.
  destruct (sync_rows_spec ids c a' (length a) L R) as [c' [E [Er [Ew [Lc H]]]]].
  exists c'. split; [exact E|]. split; [exact Er|]. unfold stores. rewrite La, Er.
  split; [exact Lc|]. split.
  - intros k Hk. destruct (H k Hk) as [[_ G]|[N G]]; rewrite G.
    + destruct (c_rational c) eqn:Rt; [|reflexivity]. destruct (W eq_refl) as [-> _]. reflexivity.
    + rewrite (St k Hk). f_equal. destruct (Ed k [] Hk) as [_ K]. rewrite K; [reflexivity|].
      intros Hin. apply N, Cov; auto.
  - rewrite Ew. exact W.
Qed.

(** * Slices *)

Lemma arange_In b e s x : s <> 0%Z -> In x (arange b e s) <->
  exists k, (0 <= k)%Z /\ x = (b + k * s)%Z /\ (if (s <? 0)%Z then (e < x)%Z else (x < e)%Z).
Proof.
  intros Hs. unfold arange. rewrite in_map_iff. destruct (Z.ltb_spec s 0).
  - split.
    + intros [k [<- Hk]]. apply in_seq in Hk. exists (Z.of_nat k). split; [lia|]. split; [reflexivity|].
      assert (Z.of_nat k < (b - e - s - 1) / (- s))%Z by lia.
      assert ((- s) * ((b - e - s - 1) / (- s)) <= b - e - s - 1)%Z by (apply Z.mul_div_le; lia). nia.
    + intros [k [Hk [-> G]]]. exists (Z.to_nat k). split; [rewrite Z2Nat.id; lia|]. apply in_seq.
      assert (k + 1 <= (b - e - s - 1) / (- s))%Z by (apply Z.div_le_lower_bound; nia). lia.
  - split.
    + intros [k [<- Hk]]. apply in_seq in Hk. exists (Z.of_nat k). split; [lia|]. split; [reflexivity|].
      assert (Z.of_nat k < (e - b + s - 1) / s)%Z by lia.
      assert (s * ((e - b + s - 1) / s) <= e - b + s - 1)%Z by (apply Z.mul_div_le; lia). nia.
    + intros [k [Hk [-> G]]]. exists (Z.to_nat k). split; [rewrite Z2Nat.id; lia|]. apply in_seq.
      assert (k + 1 <= (e - b + s - 1) / s)%Z by (apply Z.div_le_lower_bound; nia). lia.
Qed.

(** numpy's positions, as a range of integers. *)
Lemma positions_In n start stop step rows j :
  slice_positions n start stop step = Some rows -> In j rows ->
  let st := match step with None => 1%Z | Some s => s end in
  let lower := if Z.ltb st 0 then (-1)%Z else 0%Z in
  let upper := if Z.ltb st 0 then (Z.of_nat n - 1)%Z else Z.of_nat n in
  let clamp x := Z.max lower (Z.min upper (flip n x)) in
  let b := match start with None => if Z.ltb st 0 then upper else lower | Some x => clamp x end in
  let e := match stop with None => if Z.ltb st 0 then lower else upper | Some x => clamp x end in
  st <> 0%Z /\ exists x, j = Z.to_nat x /\ In x (arange b e st) /\ (0 <= x)%Z.
Proof.
  unfold slice_positions. set (st := match step with None => 1%Z | Some s => s end).
  destruct (Z.eqb_spec st 0) as [|N]; [discriminate|].
  intros [= <-] Hj. cbn zeta.
  apply in_map_iff in Hj. destruct Hj as [k [<- Hk]].
  unfold flip. split; [exact N|].
  eexists. split; [reflexivity|].
  match goal with |- In ?x ?l /\ _ => assert (I : In x l) end.
  { unfold arange. apply in_map_iff. exists k. split; [reflexivity|]. exact Hk. }
  split; [exact I|]. apply arange_In in I; [|exact N]. destruct I as [k' [K0 [-> G]]].
  destruct (Z.ltb_spec st 0).
  - assert (-1 <= match stop with Some x => Z.max (-1) (Z.min (Z.of_nat n - 1) (if (x <? 0)%Z then (x + Z.of_nat n)%Z else x)) | None => -1 end)%Z
      by (destruct stop; lia). lia.
  - assert (0 <= match start with Some x => Z.max 0 (Z.min (Z.of_nat n) (if (x <? 0)%Z then (x + Z.of_nat n)%Z else x)) | None => 0 end)%Z
      by (destruct start; lia). nia.
Qed.

Lemma slice_good n start stop step rows : good_slice n start stop step ->
  slice_positions n start stop step = Some rows ->
  (forall i, In i (slice_ids n start stop step) -> (- Z.of_nat n <= i < Z.of_nat n)%Z) /\
  (forall j, j < n -> In j rows ->
     exists i, In i (slice_ids n start stop step) /\ wrap_id n i = Some j).
Proof.
  intros G E. unfold slice_ids.
  set (st := match step with None => 1%Z | Some x => x end).
  set (s' := match start with None => 0%Z | Some x => flip n x end).
  set (e' := match stop with None => Z.of_nat n | Some x => flip n x end).
  assert (C : ((0 < st)%Z /\ (0 <= s')%Z /\ (e' <= Z.of_nat n)%Z) \/
              ((st < 0)%Z /\ (- Z.of_nat n <= s' < Z.of_nat n)%Z /\ (- Z.of_nat n - 1 <= e')%Z /\
               start <> None /\ stop <> None)).
  { unfold st, s', e', flip. destruct G as [[G1 [G2 G3]]|G].
    - left. split; [destruct step; lia|]. split.
      + destruct start as [x|]; [|lia]. destruct (Z.ltb_spec x 0); lia.
      + destruct stop as [x|]; [|lia]. destruct (Z.ltb_spec x 0); lia.
    - right. destruct step as [s|], start as [x|], stop as [y|]; try easy.
      destruct G as [G1 [G2 G3]]. split; [exact G1|].
      split; [destruct (Z.ltb_spec x 0); lia|]. split; [destruct (Z.ltb_spec y 0); lia|].
      split; discriminate. }
  assert (N0 : st <> 0%Z) by lia.
  split.
  - intros i Hi. apply arange_In in Hi; [|exact N0]. destruct Hi as [k [K0 [-> X]]].
    destruct (Z.ltb_spec st 0); [|nia]. destruct C as [C|[C1 [C2 [C3 _]]]]; [lia|]. nia.
  - intros j Hj Hr. destruct (positions_In n start stop step rows j E Hr) as [_ [x [-> [I X0]]]].
    fold st in I. exists x. split.
    2:{ apply wrap_id_spec. split; [exact Hj|]. left. lia. }
    apply arange_In in I; [|exact N0]. destruct I as [k [K0 [Ex X]]].
    apply arange_In; [exact N0|].
    destruct (Z.ltb_spec st 0) as [Ls|Ls].
    + destruct C as [C|[C1 [C2 [C3 [C4 C5]]]]]; [lia|].
      unfold s', e' in *. destruct start as [sx|]; [|easy]. destruct stop as [sy|]; [|easy].
      exists k. split; [exact K0|]. 
      assert (P : (k * st <= 0)%Z) by nia. revert P Ex X. generalize (k * st)%Z. intros z P Ex X.
      split; lia.
    + destruct C as [[C1 [C2 C3]]|C]; [|lia].
      exists k. split; [exact K0|]. unfold s', e' in *.
      assert (P : (0 <= k * st)%Z) by nia. revert P Ex X. generalize (k * st)%Z. intros z P Ex X.
      destruct start as [sx|], stop as [sy|]; split; lia.
Qed.

Lemma mask_rows_In m j : In j (mask_rows m) -> j < length m.
Proof.
  unfold mask_rows. rewrite in_map_iff. intros [[i b] [<- H]]. apply filter_In in H.
  destruct H as [H _]. apply in_combine_l in H. apply in_seq in H. cbn. lia.
Qed.

(** * Control point edits *)

Lemma setitem_good k f a c w : stores c a w -> good_key (length a) k ->
  forall rows, numpy_rows (length a) k = Some rows ->
  exists c', setitem k f a c = Wrote (numpy_set rows f a) c' /\
    c_rational c' = c_rational c /\ stores c' (numpy_set rows f a) w.
Proof.
  intros St G rows E. unfold setitem. rewrite E.
  assert (Ed := numpy_set_edited rows f a).
  assert (Main : forall ids,
    (forall i, In i ids -> (- Z.of_nat (length a) <= i < Z.of_nat (length a))%Z) ->
    (forall j, j < length a -> In j rows -> exists i, In i ids /\ wrap_id (length a) i = Some j) ->
    exists c', written (numpy_set rows f a) (cp_sync_rows c ids (numpy_set rows f a)) =
               Wrote (numpy_set rows f a) c' /\
      c_rational c' = c_rational c /\ stores c' (numpy_set rows f a) w).
  { intros ids R Cov. destruct (sync_edited c a w rows f _ ids St Ed R Cov) as [c' [E' [Er S']]].
    exists c'. rewrite E'. auto. }
  assert (Ints : forall l, all_some (map (py_index (length a)) l) = Some rows ->
    (forall i, In i l -> (- Z.of_nat (length a) <= i < Z.of_nat (length a))%Z) /\
    (forall j, j < length a -> In j rows -> exists i, In i l /\ wrap_id (length a) i = Some j)).
  { clear. induction rows as [|r rows IH]; intros [|i l] H; cbn in H; try discriminate.
    - split; [easy|]. easy.
    - destruct (py_index (length a) i); [destruct (all_some _)|]; discriminate.
    - destruct (py_index (length a) i) as [k|] eqn:Ek; [|discriminate].
      destruct (all_some (map (py_index (length a)) l)) as [r'|] eqn:Er; [|discriminate].
      injection H as <- <-. destruct (IH l Er) as [I1 I2]. rewrite py_index_wrap in Ek. split.
      + intros x [<-|Hx]; [|auto]. apply wrap_id_spec in Ek. lia.
      + intros j Hj [<-|Hin]; [exists i; split; [now left|exact Ek]|].
        destruct (I2 j Hj Hin) as [x [Hx Ex]]. exists x. split; [now right|exact Ex]. }
  destruct k as [i|l|l|m|s e st| |rs].
  - cbn [numpy_rows] in E. destruct (py_index (length a) i) as [r|] eqn:Er; [|discriminate].
    injection E as <-. rewrite py_index_wrap in Er.
    destruct (Main [i]) as [c' [E' H']].
    + intros x [<-|[]]. apply wrap_id_spec in Er. lia.
    + intros j Hj [<-|[]]. exists i. split; [now left|exact Er].
    + exists c'. split; [|exact H']. rewrite <- E'. cbn [cp_sync_rows]. unfold cp_set_row.
      destruct St as [L _]. rewrite L, Er. reflexivity.
  - apply Main; apply (Ints l E).
  - destruct l as [|x l]; [easy|]. apply Main; apply (Ints (x :: l) E).
  - cbn [numpy_rows] in E. destruct (Nat.eqb_spec (length m) (length a)) as [Lm|]; [|discriminate].
    injection E as <-. apply Main.
    + intros i Hi. apply in_map_iff in Hi. destruct Hi as [j [<- Hj]]. apply mask_rows_In in Hj. lia.
    + intros j Hj Hin. exists (Z.of_nat j). split; [now apply in_map|]. apply wrap_id_spec. auto.
  - destruct (slice_good _ _ _ _ _ G E) as [R Cov]. apply Main; assumption.
  - cbn [numpy_rows] in E. injection E as <-.
    assert (X : forall l c0 values, (forall k, In k l -> k < length (c_coords c0)) ->
       cp_sync_rows c0 (map Z.of_nat l) values =
       Some (fold_left (fun c k => cp_put c k (nth k values [])) l c0)).
    { clear. induction l as [|k l IH]; intros c0 values H; cbn; [reflexivity|].
      replace (wrap_id (length (c_coords c0)) (Z.of_nat k)) with (Some k).
      - apply IH. intros j Hj. rewrite cp_put_len. apply H. now right.
      - symmetry. apply wrap_id_spec. split; [apply H; now left|auto]. }
    destruct (Main (map Z.of_nat (seq 0 (length a)))) as [c' [E' H']].
    + intros i Hi. apply in_map_iff in Hi. destruct Hi as [j [<- Hj]]. apply in_seq in Hj. lia.
    + intros j Hj _. exists (Z.of_nat j). split; [apply in_map, in_seq; lia|]. apply wrap_id_spec. auto.
    + exists c'. split; [|exact H']. rewrite <- E'. destruct St as [L _]. rewrite X.
      * cbn [written]. unfold cp_sync. rewrite L. reflexivity.
      * intros j Hj. apply in_seq in Hj. lia.
  - cbn [numpy_rows] in E. destruct (forallb (fun r => r <? length a) rs) eqn:F; [|discriminate].
    injection E as <-. rewrite forallb_forall in F. apply Main.
    + intros i Hi. apply in_map_iff in Hi. destruct Hi as [j [<- Hj]]. apply nodup_In, F in Hj.
      apply Nat.ltb_lt in Hj. lia.
    + intros j Hj Hin. exists (Z.of_nat j). split; [now apply in_map, nodup_In|]. apply wrap_id_spec. auto.
Qed.

Lemma inplace_good f a c w : stores c a w ->
  c_rational (snd (inplace f a c)) = c_rational c /\
  fst (inplace f a c) = numpy_set (seq 0 (length a)) f a /\
  stores (snd (inplace f a c)) (fst (inplace f a c)) w.
Proof.
  intros St. destruct (setitem_good KEllipsis f a c w St I _ eq_refl) as [c' [E [Er S']]].
  cbn in E. injection E as E. unfold inplace. cbn [fst snd]. rewrite E. auto.
Qed.

(** * Weight edits *)

Lemma w_put_spec c a w k v : c_rational c = true -> stores c a w -> k < length a -> v <> 0%Qc ->
  c_rational (w_put c k v) = true /\ stores (w_put c k v) a (set_nth w k v).
Proof.
  intros R [L [St W]] Hk Hv. destruct (W R) as [Hw [Lw Fw]].
  unfold w_put. rewrite Hw. cbn [c_rational]. split; [exact R|]. unfold stores. cbn [c_coords c_weights c_rational].
  rewrite !set_nth_length. split; [exact L|]. rewrite R in *. split.
  - intros j Hj. rewrite !set_nth_nth by lia. cbn [weighted] in *. destruct (Nat.eqb_spec j k) as [->|Hne].
    + rewrite (St k Hk), scale_scale. f_equal.
      assert (nth k w 0%Qc <> 0%Qc) by (rewrite Forall_forall in Fw; apply Fw, nth_In; lia).
      field. auto.
    + apply St, Hj.
  - intros _. split; [reflexivity|]. split; [exact Lw|].
    rewrite Forall_forall in *. intros x Hx. apply (In_nth _ _ 0%Qc) in Hx. destruct Hx as [j [Hj <-]].
    rewrite set_nth_length in Hj. rewrite set_nth_nth by lia.
    destruct (j =? k); [exact Hv|]. apply Fw, nth_In, Hj.
Qed.

Lemma w_sync_good c a w w' : c_rational c = true -> stores c a w -> length w' = length w ->
  Forall (fun x => x <> 0%Qc) w' ->
  c_rational (w_sync c w') = true /\ stores (w_sync c w') a w'.
Proof.
  intros R St Lw' Fw'. assert (St0 := St). destruct St0 as [L [_ W]]. destruct (W R) as [Hw [Lw Fw]].
  unfold w_sync. rewrite Hw.
  assert (X : forall m c0 w0, m <= length w -> c_rational c0 = true -> stores c0 a w0 ->
     length w0 = length w ->
     (forall j, j < length w - m -> nth j w0 0%Qc = nth j w' 0%Qc) ->
     let c1 := fold_left (fun c k => w_put c k (nth k w' 0%Qc)) (seq (length w - m) m) c0 in
     c_rational c1 = true /\ stores c1 a w').
  { clear - Lw' Fw' Lw. induction m as [|m IH]; intros c0 w0 Hm R0 S0 L0 H0; cbn [seq fold_left].
    - split; [exact R0|]. replace w' with w0; [exact S0|].
      apply (nth_ext _ _ 0%Qc 0%Qc); [congruence|]. intros j Hj. apply H0. lia.
    - set (k := length w - S m). assert (Hk : k < length w') by (unfold k; lia).
      destruct (w_put_spec c0 a w0 k (nth k w' 0%Qc)) as [R1 S1]; auto; [lia| |].
      { rewrite Forall_forall in Fw'. apply Fw', nth_In, Hk. }
      replace (S k) with (length w - m) by (unfold k; lia).
      apply (IH _ (set_nth w0 k (nth k w' 0%Qc))); auto; [lia|rewrite set_nth_length; exact L0|].
      intros j Hj. rewrite set_nth_nth by lia. destruct (Nat.eqb_spec j k) as [->|Hne]; [reflexivity|].
      apply H0. unfold k in Hne. lia. }
  specialize (X (length w) c w (Nat.le_refl _) R St eq_refl). rewrite Nat.sub_diag in X.
  apply X. intros; lia.
Qed.

Lemma setitem_w_good k f a w c : c_rational c = true -> stores c a w ->
  (forall i x, x <> 0%Qc -> f i x <> 0%Qc) ->
  forall rows, numpy_rows (length w) k = Some rows ->
  exists c', setitem_w k f w c = Some (numpy_set_w rows f w, c') /\
    c_rational c' = true /\ stores c' a (numpy_set_w rows f w).
Proof.
  intros R St Hf rows E. unfold setitem_w. rewrite E. eexists. split; [reflexivity|].
  destruct (numpy_set_w_edited rows f w) as [L Ed].
  apply (w_sync_good c a w); auto. destruct St as [_ [_ W]]. destruct (W R) as [_ [_ Fw]].
  rewrite Forall_forall in *. intros x Hx. apply (In_nth _ _ 0%Qc) in Hx. destruct Hx as [j [Hj <-]].
  rewrite L in Hj. destruct (Ed j 0%Qc Hj) as [E1 E2].
  destruct (in_dec Nat.eq_dec j rows) as [I|N]; [rewrite (E1 I); apply Hf|rewrite (E2 N)]; apply Fw, nth_In, Hj.
Qed.

(** * Sequences *)

Lemma edits_good es : forall a w c, c_rational c = true -> stores c a w ->
  Forall (good_edit (length a)) es ->
  forall a' w', pure_edits es a w = Some (a', w') ->
  exists c', edits es a w c = Some (a', w', c') /\ stores c' a' w' /\ c_rational c' = true.
Proof.
  induction es as [|e es IH]; intros a w c R St G a' w' E.
  - cbn in *. injection E as <- <-. exists c. auto.
  - inversion G as [|? ? G1 G2]; subst. destruct e as [k f|k f|f]; cbn [edits pure_edits] in *.
    + destruct (numpy_rows (length a) k) as [rows|] eqn:Er; [|discriminate].
      destruct (setitem_good k f a c w St G1 rows Er) as [c1 [E1 [R1 S1]]]. rewrite E1.
      apply (IH _ _ c1); auto; [congruence|]. destruct (numpy_set_edited rows f a) as [L _]. rewrite L. exact G2.
    + destruct (numpy_rows (length w) k) as [rows|] eqn:Er; [|discriminate].
      destruct (setitem_w_good k f a w c R St G1 rows Er) as [c1 [E1 [R1 S1]]]. rewrite E1.
      apply (IH _ _ c1); auto.
    + destruct (inplace_good f a c w St) as [R1 [E1 S1]].
      destruct (inplace f a c) as [a1 c1]. cbn [fst snd] in *. subst a1.
      apply (IH _ _ c1); auto; [congruence|].
      destruct (numpy_set_edited (seq 0 (length a)) f a) as [L _]. rewrite L. exact G2.
Qed.

(** * Geometry *)

Lemma nth_scale d w row : nth d (scale w row) 0%Qc = (nth d row 0 * w)%Qc.
Proof.
  unfold scale. replace 0%Qc with (0 * w)%Qc at 1 by ring.
  apply (map_nth (fun x => x * w)%Qc).
Qed.

Lemma core_value_spec axes c a w us d : stores c a w ->
  core_value axes c us d =
  sp_value (Spl axes a (if c_rational c then Some w else None)) us d.
Proof.
  intros [L [St W]]. unfold core_value, sp_value, net, sp_res. cbn [sp_axes sp_cps sp_weights].
  assert (O : forall k, length a <= k -> nth k (c_coords c) [] = [] /\ nth k a [] = []).
  { intros k Hk. split; apply nth_overflow; lia. }
  destruct (c_rational c) eqn:R.
  - destruct (W eq_refl) as [Hw [Lw _]]. rewrite Hw. f_equal. apply tensor_ext_c. intros ix _.
    set (k := flat_id _ _). destruct (Nat.lt_ge_cases k (length a)) as [Hk|Hk].
    + rewrite (St k Hk). cbn [weighted]. rewrite nth_scale. ring.
    + destruct (O k Hk) as [-> ->]. destruct d; cbn; ring.
  - apply tensor_ext_c. intros ix _. set (k := flat_id _ _).
    destruct (Nat.lt_ge_cases k (length a)) as [Hk|Hk].
    + rewrite (St k Hk). reflexivity.
    + destruct (O k Hk) as [-> ->]. reflexivity.
Qed.
