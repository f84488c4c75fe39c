(** Proofs about mfem files: degree of freedom maps, export, load, solutions. *)
From Coq Require Import List Arith ZArith Bool Lia QArith Qcanon Permutation Sorted.
From Verif Require Import Base BaseRadix BaseQc M_Numpy M_Grid S_Grid P_Grid S_Spline P_Spline S_Value P_Bezier M_Core S_Core P_Core
  M_Coords S_Coords P_Coords M_Files S_Files P_Files S_Irit M_Mfem S_Mfem.
Import ListNotations.
Local Open Scope list_scope.
Local Open Scope nat_scope.

(** * Parts *)
(** First, inner, last. *)
Definition kind (n x : nat) : nat := if x =? 0 then 0 else if x =? n - 1 then 2 else 1.
Definition kinds (res ds : list nat) : list nat := map (fun nd => kind (fst nd) (snd nd)) (combine res ds).

Inductive kinded : list nat -> list nat -> list (list nat) -> Prop :=
| kinded_nil : kinded [] [] []
| kinded_cons n t p res ts ps : NoDup p -> (forall x, In x p <-> x < n /\ kind n x = t) ->
    kinded res ts ps -> kinded (n :: res) (t :: ts) (p :: ps).

Definition chosen (pos : list (list nat)) (idx : list nat) : Prop := Forall2 (fun p x => In x p) pos idx.
Lemma chosen_kinds res ts pos : kinded res ts pos -> forall idx,
  chosen pos idx <-> valid_digits res idx /\ kinds res idx = ts.
Proof.
  induction 1 as [|n t p res ts ps N E K IH]; intros idx.
  - split.
    + intros H. inversion H. subst. split; [constructor|reflexivity].
    + intros [H _]. inversion H. constructor.
  - split.
    + intros H. inversion H as [|? x ? idx' Hx F]; subst. apply E in Hx as [Hx1 Hx2]. apply IH in F as [F1 F2].
      split; [now constructor|]. unfold kinds in *. cbn. now rewrite F2, Hx2.
    + intros [H1 H2]. inversion H1 as [|? x ? idx' Hx F]; subst. unfold kinds in H2. cbn in H2. injection H2 as H2 H3.
      constructor; [apply E; auto|]. apply IH. auto.
Qed.

Lemma select_chosen pos idx : chosen pos idx <->
  exists ds, valid_digits (map (@length nat) pos) ds /\ select 0 pos ds = idx.
Proof.
  revert idx; induction pos as [|p pos IH]; intros idx.
  - split.
    + intros H. inversion H. subst. exists []. split; [constructor|reflexivity].
    + intros (ds & V & <-). constructor.
  - split.
    + intros H. inversion H as [|? x ? idx' Hx F]; subst. apply IH in F as (ds & V & E).
      apply (In_nth _ _ 0) in Hx as (j & Hj & Ej). exists (j :: ds). split; [now constructor|].
      unfold select in *. cbn. now rewrite Ej, E.
    + intros (ds & V & <-). inversion V as [|? d ? ds' Hd V']; subst. unfold select. cbn.
      constructor; [now apply nth_In|]. apply IH. exists ds'. split; [easy|reflexivity].
Qed.
Lemma select_inj pos : Forall (@NoDup nat) pos -> forall a b, valid_digits (map (@length nat) pos) a ->
  valid_digits (map (@length nat) pos) b -> select 0 pos a = select 0 pos b -> a = b.
Proof.
  induction 1 as [|p pos N F IH]; intros a b Va Vb E; inversion Va; inversion Vb; subst; [easy|].
  unfold select in E. cbn in E. injection E as E1 E2. f_equal.
  - eapply NoDup_nth; eauto.
  - now apply IH.
Qed.
Lemma kinded_nodup res ts pos : kinded res ts pos -> Forall (@NoDup nat) pos.
Proof. induction 1; constructor; auto. Qed.
Lemma kinded_length res ts pos : kinded res ts pos -> length pos = length res.
Proof. induction 1; cbn; auto. Qed.

Lemma part_spec res ix pos ts : resolve res ix = Some pos -> kinded res ts pos ->
  exists ids, multi_index_getitem res ix = Some ids /\ NoDup ids /\
    forall id, In id ids <-> id < prodn res /\ kinds res (digits res id) = ts.
Proof.
  intros R K. rewrite multi_index_spec, R. eexists. split; [reflexivity|].
  assert (forall ds, valid_digits (map (@length nat) pos) ds -> valid_digits res (select 0 pos ds)) as V.
  { intros ds H. apply (chosen_kinds _ _ _ K). apply select_chosen. eauto. }
  split.
  - apply NoDup_map_inv_dom; [|apply NoDup_f_indices]. intros a b Ha Hb E. apply in_f_indices in Ha, Hb.
    rewrite !flat_id_undigits in E by (now apply valid_length, V).
    eapply select_inj; [eapply kinded_nodup; eassumption|easy|easy|]. eapply undigits_inj; [| |exact E]; now apply V.
  - intros id. rewrite in_map_iff. split.
    + intros (ds & <- & H). apply in_f_indices in H. pose proof (V _ H) as V'.
      rewrite flat_id_undigits by now apply valid_length. split; [now apply undigits_lt|].
      rewrite digits_undigits by easy. apply (chosen_kinds _ _ _ K). apply select_chosen. eauto.
    + intros [H1 H2]. assert (chosen pos (digits res id)) as C.
      { apply (chosen_kinds _ _ _ K). split; [|easy]. apply digits_valid, prodn_pos_inv. lia. }
      apply select_chosen in C as (ds & Vd & E). exists ds. split; [|now apply in_f_indices].
      rewrite E, flat_id_undigits by apply length_digits. now apply undigits_digits.
Qed.

(** * Entries *)
Definition code (i : index) : nat :=
  match i with IInt z => if (z =? 0)%Z then 0 else 2 | ISlice _ _ _ => 1 end.
Definition entry_ok (i : index) : Prop := i = lo \/ i = hi \/ i = mid \/ i = back.

Lemma mid_positions n : 2 <= n -> index_positions n mid = Some (seq 1 (n - 2)).
Proof.
  intros H. unfold mid, index_positions, slice_positions. cbn [Z.eqb Z.ltb Z.compare].
  f_equal. 
  replace (Z.max 0 (Z.min (Z.of_nat n) (-1 + Z.of_nat n)))%Z with (Z.of_nat n - 1)%Z by lia.
  replace (Z.max 0 (Z.min (Z.of_nat n) 1))%Z with 1%Z by lia.
  rewrite Z.div_1_r. replace (Z.to_nat (Z.of_nat n - 1 - 1 + 1 - 1)) with (n - 2) by lia.
  rewrite <- seq_shift. apply map_ext. intros k. lia.
Qed.
Lemma back_positions n : 2 <= n -> exists l, index_positions n back = Some l /\ NoDup l /\
  forall x, In x l <-> 1 <= x < n - 1.
Proof.
  intros H. unfold back, index_positions, slice_positions. cbn [Z.eqb Z.ltb Z.compare Z.opp].
  replace (Z.max (-1) (Z.min (Z.of_nat n - 1) (-2 + Z.of_nat n)))%Z with (Z.of_nat n - 2)%Z by lia.
  replace (Z.max (-1) (Z.min (Z.of_nat n - 1) 0))%Z with 0%Z by lia.
  rewrite Z.div_1_r. replace (Z.to_nat (Z.of_nat n - 2 - 0 - -1 - 1)) with (n - 2) by lia.
  eexists. split; [reflexivity|]. split.
  - apply NoDup_map_inv_dom; [|apply seq_NoDup]. intros a b Ha Hb E. apply in_seq in Ha, Hb. lia.
  - intros x. rewrite in_map_iff. split.
    + intros (k & <- & Hk). apply in_seq in Hk. lia.
    + intros Hx. exists (n - 2 - x). split; [lia|]. apply in_seq. lia.
Qed.
Lemma entry_positions n i : 2 <= n -> entry_ok i -> exists p, index_positions n i = Some p /\ NoDup p /\
  forall x, In x p <-> x < n /\ kind n x = code i.
Proof.
  intros H [->|[->|[->| ->]]].
  - exists [0]. unfold lo, index_positions. cbn [Z.ltb Z.compare Z.leb andb].
    destruct (Z.ltb_spec 0 (Z.of_nat n)); [|lia]. split; [reflexivity|]. split; [repeat constructor; auto|].
    intros x. cbn. unfold kind. destruct (Nat.eqb_spec x 0) as [->|]; [intuition lia|]. destruct (x =? n - 1); intuition lia.
  - exists [n - 1]. unfold hi, index_positions. cbn [Z.ltb Z.compare].
    destruct (Z.leb_spec 0 (-1 + Z.of_nat n)); [|lia]. destruct (Z.ltb_spec (-1 + Z.of_nat n) (Z.of_nat n)); [|lia].
    cbn [andb]. split; [do 2 f_equal; lia|]. split; [repeat constructor; auto|].
    intros x. cbn. unfold kind. destruct (Nat.eqb_spec x 0) as [->|]; [intuition lia|].
    destruct (Nat.eqb_spec x (n - 1)); intuition lia.
  - exists (seq 1 (n - 2)). split; [now apply mid_positions|]. split; [apply seq_NoDup|].
    intros x. rewrite in_seq. cbn [code mid]. unfold kind. destruct (Nat.eqb_spec x 0) as [->|]; [intuition lia|].
    destruct (Nat.eqb_spec x (n - 1)); intuition lia.
  - destruct (back_positions n H) as (l & E & N & I). exists l. split; [exact E|]. split; [exact N|].
    intros x. rewrite I. cbn [code back]. unfold kind. destruct (Nat.eqb_spec x 0) as [->|]; [intuition lia|].
    destruct (Nat.eqb_spec x (n - 1)); intuition lia.
Qed.
Lemma entries_kinded res : Forall (fun n => 2 <= n) res -> forall ix, length ix = length res -> Forall entry_ok ix ->
  exists pos, resolve res ix = Some pos /\ kinded res (map code ix) pos.
Proof.
  induction 1 as [|n res Hn F IH]; intros [|i ix] L G; try easy.
  - exists []. split; constructor.
  - inversion G; subst. destruct (entry_positions n i) as (p & E & N & I); auto.
    destruct (IH ix) as (pos & R & K); auto. exists (p :: pos). cbn [resolve map]. rewrite E, R.
    split; [reflexivity|]. now constructor.
Qed.

Lemma part_ids_spec res p : Forall (fun n => 2 <= n) res -> length (snd p) = length res -> Forall entry_ok (snd p) ->
  exists ids, part_ids res p = Some ids /\ NoDup ids /\
    forall id, In id ids <-> id < prodn res /\ kinds res (digits res id) = map code (snd p).
Proof.
  intros F L G. destruct (entries_kinded res F _ L G) as (pos & R & K).
  destruct (part_spec _ _ _ _ R K) as (ids & E & N & I). unfold part_ids. rewrite E. cbn [option_map].
  eexists. split; [reflexivity|]. destruct (fst p); [|auto]. split; [now apply NoDup_rev|].
  intros id. now rewrite <- in_rev.
Qed.

(** * Gluing the parts together *)
Lemma classes_permutation {K} (cls : nat -> K) n codes pieces : NoDup codes ->
  Forall2 (fun k ids => NoDup ids /\ forall id, In id ids <-> id < n /\ cls id = k) codes pieces ->
  (forall id, id < n -> In (cls id) codes) ->
  Permutation (concat pieces) (seq 0 n).
Proof.
  intros N F C. apply NoDup_Permutation; [|apply seq_NoDup|].
  - clear C. induction F as [|k ids codes pieces [N1 I1] F IH]; [constructor|]. inversion N; subst.
    cbn. apply NoDup_app_iff. split; [easy|]. split; [now apply IH|].
    intros x Hx Hx'. apply I1 in Hx as [_ Hx]. apply in_concat in Hx' as (ids' & A & B).
    assert (exists k', In k' codes /\ cls x = k') as (k' & Hk' & Ek').
    { clear - F A B. induction F as [|k ids codes pieces [N1 I1] F IH]; [easy|]. destruct A as [->|A].
      - exists k. split; [now left|]. now apply I1.
      - destruct (IH A) as (k' & H1 & H2). exists k'. split; [now right|easy]. }
    congruence.
  - intros id. rewrite in_concat, in_seq. split.
    + intros (ids & A & B). clear - F A B. split; [lia|]. cbn. induction F as [|k ids' codes pieces [N1 I1] F IH]; [easy|].
      destruct A as [->|A]; [now apply I1|now apply IH].
    + intros [_ H]. cbn in H. specialize (C id H). clear N. induction F as [|k ids codes pieces [N1 I1] F IH]; [easy|].
      destruct C as [C|C].
      * exists ids. split; [now left|]. apply I1. auto.
      * destruct IH as (ids' & A & B); auto. exists ids'. split; [now right|easy].
Qed.

Lemma kind_lt n x : kind n x < 3.
Proof. unfold kind. destruct (x =? 0), (x =? n - 1); lia. Qed.

Definition nodupb (l : list (list nat)) : bool :=
  (fix go l := match l with [] => true | x :: r => negb (existsb (fun y => if list_eq_dec Nat.eq_dec x y then true else false) r) && go r end) l.
Lemma nodupb_ok l : nodupb l = true -> NoDup l.
Proof.
  induction l as [|x l IH]; intros H; [constructor|]. cbn in H. apply andb_prop in H as [H1 H2]. constructor; [|now apply IH].
  intros X. apply negb_true_iff in H1. assert (existsb (fun y => if list_eq_dec Nat.eq_dec x y then true else false) l = true) as Y; [|congruence].
  apply existsb_exists. exists x. split; [easy|]. now destruct (list_eq_dec Nat.eq_dec x x).
Qed.

Lemma dof_parts res parts : Forall (fun n => 2 <= n) res ->
  Forall (fun p => length (snd p) = length res /\ Forall entry_ok (snd p)) parts ->
  nodupb (map (fun p => map code (snd p)) parts) = true ->
  (forall ts, length ts = length res -> Forall (fun t => t < 3) ts -> In ts (map (fun p => map code (snd p)) parts)) ->
  exists l, all_some (map (part_ids res) parts) = Some l /\ Permutation (concat l) (seq 0 (prodn res)).
Proof.
  intros F G N C.
  assert (exists l, all_some (map (part_ids res) parts) = Some l /\
    Forall2 (fun k ids => NoDup ids /\ forall id, In id ids <-> id < prodn res /\ kinds res (digits res id) = k)
      (map (fun p => map code (snd p)) parts) l) as (l & E & F2).
  { clear N C. induction G as [|p parts [G1 G2] G IH]; [exists []; split; [reflexivity|constructor]|].
    destruct IH as (l & E & F2). destruct (part_ids_spec res p F G1 G2) as (ids & E' & N' & I').
    exists (ids :: l). cbn [map all_some]. rewrite E', E. split; [reflexivity|]. constructor; auto. }
  exists l. split; [easy|]. apply (classes_permutation (fun id => kinds res (digits res id)) _ _ _ (nodupb_ok _ N) F2).
  intros id Hid. apply C.
  - unfold kinds. rewrite map_length, combine_length, length_digits. lia.
  - apply Forall_forall. intros t Ht. unfold kinds in Ht. apply in_map_iff in Ht as (nd & <- & _). apply kind_lt.
Qed.

Ltac entries := repeat (apply Forall_cons; [split; [reflexivity|cbn [snd]; repeat (apply Forall_cons; [unfold entry_ok; tauto|]); apply Forall_nil]|]); apply Forall_nil.
Lemma small_cases t : t < 3 -> t = 0 \/ t = 1 \/ t = 2. Proof. lia. Qed.
Lemma dof_permutation res : (length res = 2 \/ length res = 3) -> Forall (fun n => 2 <= n) res ->
  exists ids, dof_mapping res = Some (ids, argsort ids) /\ Permutation ids (seq 0 (prodn res)).
Proof.
  intros L F. unfold dof_mapping.
  assert (exists parts l, (match length res with 2 => Some parts_2d | 3 => Some parts_3d | _ => None end) = Some parts /\
    all_some (map (part_ids res) parts) = Some l /\ Permutation (concat l) (seq 0 (prodn res))) as (parts & l & -> & -> & P).
  { destruct L as [L|L]; rewrite L.
    - exists parts_2d. destruct (dof_parts res parts_2d F) as (l & E & P).
      + rewrite L. unfold parts_2d. entries.
      + vm_compute. reflexivity.
      + rewrite L. intros ts Lt Ft. destruct ts as [|a [|b [|]]]; try easy. inversion Ft as [|? ? Ha Ft']. inversion Ft' as [|? ? Hb _]. subst.
        apply small_cases in Ha, Hb. cbv -[In]. destruct Ha as [->|[->| ->]], Hb as [->|[->| ->]]; cbn; tauto.
      + eauto.
    - exists parts_3d. destruct (dof_parts res parts_3d F) as (l & E & P).
      + rewrite L. unfold parts_3d. entries.
      + vm_compute. reflexivity.
      + rewrite L. intros ts Lt Ft. destruct ts as [|a [|b [|c [|]]]]; try easy. inversion Ft as [|? ? Ha Ft']. inversion Ft' as [|? ? Hb Ft'']. inversion Ft'' as [|? ? Hc _]. subst.
        apply small_cases in Ha, Hb, Hc. cbv -[In]. destruct Ha as [->|[->| ->]], Hb as [->|[->| ->]], Hc as [->|[->| ->]]; cbn; tauto.
      + eauto. }
  exists (concat l). split; [reflexivity|exact P].
Qed.

(** * argsort of a permutation *)
Lemma arg_insert_perm key i l : Permutation (arg_insert key i l) (i :: l).
Proof. induction l as [|j l IH]; cbn; [easy|]. destruct (key i <=? key j); [easy|]. rewrite IH. constructor. Qed.
Lemma argsort_perm keys : Permutation (argsort keys) (seq 0 (length keys)).
Proof.
  unfold argsort. induction (seq 0 (length keys)) as [|i l IH]; cbn; [easy|]. rewrite arg_insert_perm. now constructor.
Qed.
Lemma arg_insert_sorted key i l : StronglySorted (fun a b => key a <= key b) l ->
  StronglySorted (fun a b => key a <= key b) (arg_insert key i l).
Proof.
  induction 1 as [|j l S IH F]; cbn; [repeat constructor|]. destruct (Nat.leb_spec (key i) (key j)) as [H|H].
  - constructor; [now constructor|]. constructor; [easy|]. eapply Forall_impl; [|exact F]. cbn. lia.
  - constructor; [exact IH|]. apply (Permutation_Forall (Permutation_sym (arg_insert_perm key i l))). constructor; [lia|exact F].
Qed.
Lemma argsort_sorted keys : StronglySorted (fun a b => nth a keys 0 <= nth b keys 0) (argsort keys).
Proof. unfold argsort. induction (seq 0 (length keys)); cbn; [constructor|]. now apply arg_insert_sorted. Qed.
Lemma sorted_le_eq l : StronglySorted le l -> forall l', StronglySorted le l' -> Permutation l l' -> l = l'.
Proof.
  induction 1 as [|x l S IH F]; intros l' S' P.
  - now apply Permutation_nil in P.
  - destruct S' as [|y l' S' F']; [now apply Permutation_sym, Permutation_nil in P|].
    assert (x = y) as ->.
    { assert (In y (x :: l)) as [|Hy] by (eapply Permutation_in; [symmetry; exact P|now left]); auto.
      assert (In x (y :: l')) as [|Hx] by (eapply Permutation_in; [exact P|now left]); auto.
      rewrite Forall_forall in F, F'. apply Nat.le_antisymm; auto. }
    f_equal. apply IH; auto. eapply Permutation_cons_inv; eauto.
Qed.
Lemma sorted_map_key (keys l : list nat) : StronglySorted (fun a b => nth a keys 0 <= nth b keys 0) l ->
  StronglySorted le (map (fun i => nth i keys 0) l).
Proof. induction 1; cbn; constructor; auto. now apply Forall_map. Qed.
Lemma seq_sorted a n : StronglySorted le (seq a n).
Proof.
  revert a; induction n as [|n IH]; intros a; cbn; constructor; auto. apply Forall_forall. intros x Hx. apply in_seq in Hx. lia.
Qed.
Lemma map_nth_self (l : list nat) : map (fun i => nth i l 0) (seq 0 (length l)) = l.
Proof.
  induction l as [|a l IH]; [easy|]. cbn [length seq map nth]. f_equal. rewrite <- seq_shift, map_map. exact IH.
Qed.
Lemma argsort_inverse ids n : Permutation ids (seq 0 n) -> map (fun i => nth i ids 0) (argsort ids) = seq 0 n.
Proof.
  intros P. apply sorted_le_eq; [apply sorted_map_key, argsort_sorted|apply seq_sorted|].
  rewrite (Permutation_map _ (argsort_perm ids)). now rewrite map_nth_self.
Qed.

(** * Taking rows *)
Lemma take_ok {A} (a : list A) ids : Forall (fun i => i < length a) ids ->
  exists b, take a ids = Some b /\ length b = length ids /\ forall k d, k < length ids -> nth k b d = nth (nth k ids 0) a d.
Proof.
  unfold take. induction 1 as [|i ids H F (b & E & L & N)]; [exists []; split; [easy|split; [easy|cbn; lia]]|].
  destruct (nth_error a i) as [x|] eqn:Ex; [|apply nth_error_None in Ex; lia].
  exists (x :: b). cbn [map all_some]. rewrite Ex, E. split; [easy|]. split; [cbn; lia|].
  intros [|k] d Hk; cbn in *; [symmetry; now apply nth_error_nth|apply N; lia].
Qed.
Lemma perm_bound ids n : Permutation ids (seq 0 n) -> Forall (fun i => i < n) ids.
Proof. intros P. apply Forall_forall. intros i H. apply (Permutation_in _ P) in H. apply in_seq in H. lia. Qed.
Lemma perm_length ids n : Permutation ids (seq 0 n) -> length ids = n.
Proof. intros P. rewrite (Permutation_length P). apply seq_length. Qed.
Lemma take_perm {A} (a : list A) ids : Permutation ids (seq 0 (length a)) ->
  exists b, take a ids = Some b /\ Permutation b a /\ take b (argsort ids) = Some a.
Proof.
  intros P. destruct (take_ok a ids (perm_bound _ _ P)) as (b & E & L & N). pose proof (perm_length _ _ P) as Lp.
  assert (Permutation (argsort ids) (seq 0 (length b))) as Pa by (rewrite L; apply argsort_perm).
  destruct (take_ok b (argsort ids) (perm_bound _ _ Pa)) as (c & E' & L' & N').
  exists b. split; [exact E|]. 
  assert (c = a) as ->.
  { destruct a as [|a0 a']; [destruct c; [easy|]; rewrite (perm_length _ _ Pa) in L'; cbn in *; lia|].
    set (a := a0 :: a') in *. apply (nth_ext _ _ a0 a0); [rewrite L', (perm_length _ _ Pa); lia|].
    intros k Hk. rewrite N' by lia.
    assert (nth (nth k (argsort ids) 0) ids 0 = k) as Ek.
    { pose proof (argsort_inverse ids _ P) as X. apply (f_equal (fun l => nth k l 0)) in X.
      rewrite seq_nth in X by (rewrite L' in Hk; rewrite (perm_length _ _ Pa) in Hk; lia).
      rewrite (nth_indep _ 0 (nth 0 ids 0)) in X by (rewrite map_length; lia).
      rewrite (map_nth (fun i => nth i ids 0)) in X. exact X. }
    rewrite N; [now rewrite Ek|].
    assert (In (nth k (argsort ids) 0) (argsort ids)) as Hin by (apply nth_In; lia).
    pose proof (perm_bound _ _ Pa) as B. rewrite Forall_forall in B. specialize (B _ Hin). lia. }
  split; [|exact E'].
  clear - L N P. destruct a as [|a0 a'].
  - apply Permutation_sym, Permutation_nil in P. subst ids. destruct b; [easy|discriminate].
  - set (a := a0 :: a') in *. assert (b = map (fun i => nth i a a0) ids) as ->.
    { apply (nth_ext _ _ a0 a0); [now rewrite map_length|]. intros k Hk. rewrite N by lia.
      rewrite (nth_indep (map _ ids) a0 (nth 0 a a0)) by (rewrite map_length; lia).
      now rewrite (map_nth (fun i => nth i a a0)). }
    rewrite (Permutation_map _ P). clear. replace (map (fun i => nth i a a0) (seq 0 (length a))) with a; [easy|].
    clearbody a. induction a as [|x a IH]; [easy|]. cbn [length seq map nth]. f_equal. rewrite <- seq_shift, map_map. exact IH.
Qed.

(** * As NURBS *)
Definition unit_knots (p : nat) : list Qc := repeat 0%Qc (p + 1) ++ repeat 1%Qc (p + 1).
Lemma unit_knots_length p : length (unit_knots p) = 2 * (p + 1).
Proof. unfold unit_knots. rewrite app_length, !repeat_length. lia. Qed.
Lemma unit_knots_nth p i : nth i (unit_knots p) 0%Qc = if (p + 1 <=? i) && (i <? 2 * (p + 1)) then 1%Qc else 0%Qc.
Proof.
  unfold unit_knots. destruct (Nat.leb_spec (p + 1) i) as [H|H].
  - rewrite app_nth2 by (rewrite repeat_length; lia). rewrite repeat_length. cbn [andb].
    destruct (Nat.ltb_spec i (2 * (p + 1))) as [H'|H'].
    + rewrite (nth_indep _ 0%Qc 1%Qc) by (rewrite repeat_length; lia). apply nth_repeat.
    + apply nth_overflow. rewrite repeat_length. lia.
  - rewrite app_nth1 by (rewrite repeat_length; lia). apply nth_repeat.
Qed.
Lemma unit_knots_fit p : knots_fit (Z.of_nat p) (unit_knots p).
Proof.
  unfold knots_fit. split; [lia|]. split.
  - intros i j Hij Hj. rewrite unit_knots_length in Hj. rewrite !unit_knots_nth.
    destruct (Nat.leb_spec (p + 1) i), (Nat.leb_spec (p + 1) j), (Nat.ltb_spec i (2 * (p + 1))), (Nat.ltb_spec j (2 * (p + 1)));
      cbn [andb]; try lia; qlra.
  - rewrite unit_knots_length. lia.
Qed.
Lemma unit_knots_bound p : Forall (fun k => (qc (-1) 1 <= k)%Qc) (unit_knots p).
Proof. apply Forall_forall. intros k H. unfold unit_knots in H. apply in_app_or in H as [H|H]; apply repeat_spec in H as ->; unfold Qcle, Qle; vm_compute; discriminate. Qed.

Lemma nurbs_axis_n a : ax_n (nurbs_axis a) = ax_n a.
Proof. destruct a as [p|p kv]; [|easy]. cbn [nurbs_axis ax_n]. fold (unit_knots p). rewrite unit_knots_length. lia. Qed.
Lemma as_nurbs_res s : sp_res (as_nurbs s) = sp_res s.
Proof. unfold sp_res, as_nurbs. cbn. rewrite map_map. apply map_ext, nurbs_axis_n. Qed.
Lemma as_nurbs_of s : nurbs_of s (as_nurbs s).
Proof.
  unfold nurbs_of, as_nurbs. cbn. split; [easy|]. split; [now destruct (sp_weights s)|].
  induction (sp_axes s) as [|[p|p kv] l IH]; cbn; constructor; auto.
Qed.

(** Only knot axes, storable, weights given. *)
Definition nurbs_like (limit : nat) (s : spline) (w : list Qc) : Prop :=
  storable limit s /\ sp_weights s = Some w /\ Forall (fun a => exists p kv, a = KnotAxis p kv) (sp_axes s).
Lemma as_nurbs_like limit s : storable limit s ->
  nurbs_like limit (as_nurbs s) (match sp_weights s with Some w => w | None => repeat 1%Qc (length (sp_cps s)) end).
Proof.
  intros (degs & kvs & cps & ws & C & U & H).
  assert (forall w, match ws with None => True | Some ws => length ws = length cps end ->
    match sp_weights s with Some w => Some w | None => Some (repeat 1%Qc (length (sp_cps s))) end = Some w -> length w = length cps) as Lw.
  { destruct H as (_ & _ & H3 & H4). rewrite H3, H4. intros w A B. destruct ws; injection B as <-; [easy|apply repeat_length]. }
  unfold nurbs_like. refine (conj _ (conj _ _)).
  2:{ cbn. now destruct (sp_weights s). }
  2:{ cbn. apply Forall_map, Forall_forall. intros [p|p kv] _; cbn; eauto. }
  set (w := match sp_weights s with Some w => w | None => repeat 1%Qc (length (sp_cps s)) end) in *.
  destruct C as (C1 & C2 & C3 & C4 & C5). destruct H as (H1 & H2 & H3 & H4). destruct U as (U1 & U2).
  assert (length w = length cps) as Hw by (apply Lw; [easy|unfold w; now destruct (sp_weights s)]).
  assert (sp_weights (as_nurbs s) = Some w) as Ew by (cbn; unfold w; now destruct (sp_weights s)).
  destruct kvs as [kvs|].
  - exists degs, (Some kvs), cps, (Some w). split; [|split].
    + refine (conj C1 (conj C2 (conj C3 (conj C4 Hw)))).
    + split; auto.
    + refine (conj _ (conj _ (conj H3 Ew))).
      * rewrite <- H1. cbn. rewrite map_map. apply map_ext. now intros [|].
      * cbn. clear - H2. induction H2 as [|a kv ax kvs (p & ->) F IH]; cbn; constructor; eauto.
  - exists degs, (Some (map (fun a => unit_knots (ax_degree a)) (sp_axes s))), cps, (Some w). split; [|split].
    + refine (conj C1 (conj _ (conj C3 (conj _ Hw)))).
      * rewrite <- H1. clear. induction (sp_axes s); cbn; constructor; auto. apply unit_knots_fit.
      * rewrite C4. rewrite <- H1. clear. induction (sp_axes s) as [|a l IH]; [easy|]. cbn [map wanted].
        rewrite unit_knots_length, IH. f_equal. lia.
    + split; [easy|]. apply Forall_map, Forall_forall. intros a _. apply unit_knots_bound.
    + refine (conj _ (conj _ (conj H3 Ew))).
      * rewrite <- H1. cbn. rewrite map_map. apply map_ext. now intros [|].
      * cbn. clear - H2. induction H2 as [|a ax (p & ->) F IH]; cbn; constructor; eauto.
Qed.

Lemma storable_length limit s : storable limit s ->
  length (sp_cps s) = prodn (sp_res s) /\ match sp_weights s with Some w => length w = prodn (sp_res s) | None => True end.
Proof.
  intros (degs & kvs & cps & ws & C & U & H). destruct C as (C1 & C2 & C3 & C4 & C5). destruct H as (H1 & H2 & H3 & H4).
  assert (length cps = prodn (sp_res s)) as E.
  { apply Nat2Z.inj. rewrite C4. unfold sp_res. destruct kvs as [kvs|].
    - rewrite <- H1 in C2 |- *. clear - C2 H2. induction H2 as [|a kv ax kvs (p & ->) F IH]; [easy|].
      cbn [map wanted prodn ax_degree] in *. inversion C2 as [|? ? ? ? (A1 & A2 & A3) C]; subst. rewrite IH by easy.
      unfold prodn in *. cbn [fold_right map ax_n] in *. rewrite Nat2Z.inj_mul. f_equal. lia.
    - rewrite <- H1. clear - H2. induction H2 as [|a ax (p & ->) F IH]; [easy|].
      cbn [map wanted prodn ax_degree] in *. rewrite IH. cbn [ax_n]. rewrite Nat2Z.inj_mul. f_equal. lia. }
  rewrite H3, H4. split; [easy|]. destruct ws; [congruence|easy].
Qed.

(** Other points and weights of the same sizes. *)
Lemma nurbs_like_points limit s w p' w' : nurbs_like limit s w -> Permutation p' (sp_cps s) -> length w' = length w ->
  nurbs_like limit (Spl (sp_axes s) p' (Some w')) w'.
Proof.
  intros ((degs & kvs & cps & ws & C & U & H) & Ew & K) P L.
  destruct C as (C1 & C2 & C3 & C4 & C5). destruct H as (H1 & H2 & H3 & H4). destruct U as (U1 & U2).
  refine (conj _ (conj eq_refl K)). exists degs, kvs, p', (Some w').
  rewrite H3 in P. split; [|split].
  - refine (conj C1 (conj C2 (conj _ (conj _ _)))).
    + destruct C3 as (dim & D & F). exists dim. split; [easy|]. now apply (Permutation_Forall (Permutation_sym P)).
    + now rewrite (Permutation_length P).
    + rewrite Ew in H4. subst ws. rewrite (Permutation_length P). congruence.
  - split; [easy|]. destruct kvs; [easy|]. now apply (Permutation_Forall (Permutation_sym P)).
  - refine (conj H1 (conj H2 (conj eq_refl eq_refl))).
Qed.
Lemma nurbs_like_values limit s w p' dim : nurbs_like limit s w -> length p' = length (sp_cps s) -> 0 < dim ->
  Forall (fun r => length r = dim) p' -> nurbs_like limit (Spl (sp_axes s) p' (Some w)) w.
Proof.
  intros ((degs & kvs & cps & ws & C & U & H) & Ew & K) L D R.
  destruct C as (C1 & C2 & C3 & C4 & C5). destruct H as (H1 & H2 & H3 & H4). destruct U as (U1 & U2).
  refine (conj _ (conj eq_refl K)). exists degs, kvs, p', (Some w).
  rewrite H3 in L. split; [|split].
  - refine (conj C1 (conj C2 (conj _ (conj _ _)))).
    + exists dim. auto.
    + now rewrite L.
    + rewrite Ew in H4. subst ws. lia.
  - split; [easy|]. destruct kvs; [easy|]. exfalso.
    destruct H2 as [|a ax (p & ->) F]; [now apply C1|]. inversion K as [|? ? (q & kv & X)]. discriminate.
  - refine (conj H1 (conj H2 (conj eq_refl eq_refl))).
Qed.
Lemma nurbs_generic limit s w : nurbs_like limit s w ->
  generic limit (core_degrees s) (Some (core_kvs s)) (sp_cps s) (Some w) = Some s.
Proof.
  intros (St & Ew & K). rewrite <- Ew. rewrite <- (generic_ok limit s St). f_equal.
  destruct St as (degs & kvs & cps & ws & C & U & H). destruct C as (C1 & _). destruct H as (H1 & _).
  unfold has_kvs. destruct K as [|a l (p & kv & ->) K]; [|easy]. cbn in H1. congruence.
Qed.

(** * Overwriting all rows *)
Lemma whole_rows n : numpy_rows n whole = Some (seq 0 n).
Proof.
  cbn [numpy_rows whole]. unfold slice_positions. cbn [Z.eqb Z.ltb Z.compare].
  replace (Z.to_nat ((Z.of_nat n - 0 + 1 - 1) / 1)) with n by (rewrite Z.div_1_r; lia).
  f_equal. rewrite <- (map_id (seq 0 n)) at 2. apply map_ext. intros. lia.
Qed.
Lemma edited_all {A} (f : nat -> A -> A) (a a' b : list A) d : edited (seq 0 (length a)) f a a' -> length b = length a ->
  (forall i x, i < length a -> f i x = nth i b d) -> a' = b.
Proof.
  intros [L E] Lb F. apply (nth_ext _ _ d d); [lia|]. intros i Hi. destruct (E i d) as [E1 _]; [lia|].
  rewrite E1 by (apply in_seq; lia). apply F. lia.
Qed.
Lemma rational_core_stores p w : length w = length p -> Forall (fun x => x <> 0%Qc) w -> stores (rational_core p w) p w.
Proof.
  intros L F. unfold stores, rational_core. cbn. split; [rewrite map_length, combine_length; lia|]. split; [|auto].
  intros k Hk. set (g := fun wr : Qc * list Qc => scale (fst wr) (snd wr)).
  rewrite (nth_indep _ [] (g (0%Qc, []))) by (rewrite map_length, combine_length; lia).
  rewrite (map_nth g), combine_nth by easy. reflexivity.
Qed.
Lemma overwrite_ok p w p' w' : length w = length p -> length p' = length p -> length w' = length w ->
  Forall (fun x => x <> 0%Qc) w -> Forall (fun x => x <> 0%Qc) w' ->
  exists c, edits [overwrite_cps p'; overwrite_ws w'] p w (rational_core p w) = Some (p', w', c) /\
    reported_cps c = p' /\ c_weights c = w'.
Proof.
  intros L Lp Lw F F'.
  assert (pure_edits [overwrite_cps p'; overwrite_ws w'] p w = Some (p', w')) as Ep.
  { unfold overwrite_cps, overwrite_ws. cbn [pure_edits]. rewrite !whole_rows. do 2 f_equal.
    - apply (edited_all _ _ _ p' [] (numpy_set_edited _ _ _)); auto.
    - apply (edited_all _ _ _ w' 1%Qc (numpy_set_w_edited _ _ _)); auto. }
  destruct (edits_good [overwrite_cps p'; overwrite_ws w'] p w (rational_core p w)) with (a' := p') (w' := w') as (c & E & St & R); auto.
  - now apply rational_core_stores.
  - constructor; [|constructor; [|constructor]].
    + cbn. unfold good_slice. left. auto.
    + cbn. intros i x _. destruct (Nat.lt_ge_cases i (length w')) as [H|H].
      * rewrite Forall_forall in F'. apply F'. now apply nth_In.
      * rewrite nth_overflow by easy. discriminate.
  - exists c. split; [exact E|]. apply holds_stores in St as (H1 & H2 & H3). split; [exact H1|]. now apply H3.
Qed.
Lemma overwrite_ws_ok p w w' : length w = length p -> length w' = length w ->
  Forall (fun x => x <> 0%Qc) w -> Forall (fun x => x <> 0%Qc) w' ->
  exists c, edits [overwrite_ws w'] p w (rational_core p w) = Some (p, w', c) /\
    reported_cps c = p /\ c_weights c = w'.
Proof.
  intros L Lw F F'.
  assert (pure_edits [overwrite_ws w'] p w = Some (p, w')) as Ep.
  { unfold overwrite_ws. cbn [pure_edits]. rewrite !whole_rows. do 2 f_equal.
    apply (edited_all _ _ _ w' 1%Qc (numpy_set_w_edited _ _ _)); auto. }
  destruct (edits_good [overwrite_ws w'] p w (rational_core p w)) with (a' := p) (w' := w') as (c & E & St & R); auto.
  - now apply rational_core_stores.
  - constructor; [|constructor].
    cbn. intros i x _. destruct (Nat.lt_ge_cases i (length w')) as [H|H].
    + rewrite Forall_forall in F'. apply F'. now apply nth_In.
    + rewrite nth_overflow by easy. discriminate.
  - exists c. split; [exact E|]. apply holds_stores in St as (H1 & H2 & H3). split; [exact H1|]. now apply H3.
Qed.

(** * Sections of a file *)
Lemma collect_rows h cur l f : collect h cur (map Row l ++ f) =
  (match cur with Some c => if hot_eqb c h then l else [] | None => [] end) ++ collect h cur f.
Proof.
  induction l as [|r l IH]; cbn.
  - destruct cur as [c|]; [destruct (hot_eqb c h)|]; reflexivity.
  - rewrite IH. destruct cur as [c|]; [destruct (hot_eqb c h)|]; reflexivity.
Qed.
Lemma topology_cold d top f h : topology d = Some top -> collect h None (top ++ f) = collect h None f.
Proof. destruct d as [|[|[|[|d]]]]; cbn [topology]; try discriminate; intros [= <-]; reflexivity. Qed.
Lemma topology_after d top f : topology d = Some top -> after_ordering (top ++ f) = after_ordering f.
Proof. destruct d as [|[|[|[|d]]]]; cbn [topology]; try discriminate; intros [= <-]; reflexivity. Qed.
Lemma after_rows l f : after_ordering (map Row l ++ f) = after_ordering f.
Proof. induction l; cbn; auto. Qed.

Lemma mfem_like limit s w : nurbs_like limit s w -> mfem_shape (sp_res s) ->
  exists ids, dof_mapping (sp_res s) = Some (ids, argsort ids) /\
    Permutation ids (seq 0 (length (sp_cps s))) /\ Permutation ids (seq 0 (length w)).
Proof.
  intros (St & Ew & K) (L & F). destruct (dof_permutation (sp_res s) L F) as (ids & E & P).
  destruct (storable_length _ _ St) as [L1 L2]. rewrite Ew in L2. exists ids. rewrite L1, L2. auto.
Qed.

Lemma export_ok s w : sp_weights (as_nurbs s) = Some w -> mfem_shape (sp_res s) ->
  forall ids inv w' p', dof_mapping (sp_res s) = Some (ids, inv) -> take w ids = Some w' -> take (sp_cps s) ids = Some p' ->
  exists top, topology (length (sp_axes s)) = Some top /\
  export_mfem s = Some ([Key KIntro; Key KDimension; zs [Z.of_nat (length (sp_axes s))]] ++ top ++
                [Key KKnotvectors] ++ map Row ([MI (Z.of_nat (length (sp_axes s)))] ::
                map (fun a => MI (Z.of_nat (ax_degree a)) :: MI (Z.of_nat (ax_n a)) :: map MR (ax_kv a))
                    (sp_axes (as_nurbs s))) ++
                [Key KWeights] ++ map Row (map (fun x => [MR x]) w') ++
                [Key KSpace; Key KCollection; Key KVDim; Key KOrdering] ++
                map Row (map (map MR) p')).
Proof.
  intros Ew (L & F) ids inv w' p' Ed Ew' Ep'. unfold export_mfem. rewrite as_nurbs_res, Ed, Ew, Ew'.
  change (sp_cps (as_nurbs s)) with (sp_cps s). rewrite Ep'.
  assert (length (sp_axes (as_nurbs s)) = length (sp_axes s)) as La by (cbn; apply map_length).
  rewrite La. unfold sp_res in L. rewrite map_length in L.
  assert (exists top, topology (length (sp_axes s)) = Some top) as (top & Et) by (destruct L as [-> | ->]; cbn [topology]; eauto).
  exists top. split; [exact Et|]. rewrite Et. f_equal. f_equal. f_equal.
  cbn [app map]. rewrite !map_map. reflexivity.
Qed.

Lemma map_MR l : map num_value (map MR l) = l.
Proof. rewrite map_map. apply map_id. Qed.
Lemma map_map_MR l : map (map num_value) (map (map MR) l) = l.
Proof. rewrite map_map. rewrite <- (map_id l) at 2. apply map_ext. apply map_MR. Qed.
Lemma one_numbers l : all_some (map one_number (map (fun x => [MR x]) l)) = Some l.
Proof. induction l as [|x l IH]; [easy|]. cbn [map all_some one_number num_value]. now rewrite IH. Qed.
Lemma kv_rows axes : all_some (map kv_row (map (fun a => MI (Z.of_nat (ax_degree a)) :: MI (Z.of_nat (ax_n a)) :: map MR (ax_kv a)) axes)) =
  Some (map (fun a => (Z.of_nat (ax_degree a), Z.of_nat (ax_n a), ax_kv a)) axes).
Proof.
  induction axes as [|a l IH]; [easy|]. cbn [map all_some kv_row num_int]. rewrite IH, map_MR. reflexivity.
Qed.

Lemma load_nurbs limit s : storable limit s -> weights_ok s -> mfem_shape (sp_res s) ->
  exists f, export_mfem s = Some f /\ load_mfem limit f = Some (Object (Some CNurbs) (as_nurbs s)).
Proof.
  intros St Wo M. pose proof (as_nurbs_like limit s St) as NL.
  set (w := match sp_weights s with Some w => w | None => repeat 1%Qc (length (sp_cps s)) end) in *.
  assert (Forall (fun x => x <> 0%Qc) w) as Fw.
  { unfold w, weights_ok in *. destruct (sp_weights s); [easy|]. apply Forall_forall. intros x H. apply repeat_spec in H as ->. discriminate. }
  pose proof (as_nurbs_res s) as Er.
  destruct (mfem_like limit _ w NL) as (ids & Ed & P1 & P2); [now rewrite Er|].
  destruct (take_perm _ _ P1) as (p' & Ep & Pp & Bp). destruct (take_perm _ _ P2) as (w' & Ew' & Pw & Bw).
  change (sp_cps (as_nurbs s)) with (sp_cps s) in *.
  pose proof NL as (Stn & Ew & K). rewrite Er in Ed.
  destruct (export_ok s w Ew M _ _ _ _ Ed Ew' Ep) as (top & Et & Ex).
  eexists. split; [exact Ex|]. unfold load_mfem.
  cbn [app collect hot_key zs]. rewrite !(topology_cold _ _ _ _ Et). cbn [app collect hot_key].
  rewrite !collect_rows. cbn [app collect hot_key hot_eqb]. rewrite !collect_rows.
  cbn [app collect hot_key hot_eqb]. rewrite <- (app_nil_r (map Row (map (map MR) p'))), !collect_rows.
  cbn [app collect hot_key hot_eqb]. rewrite !app_nil_r.
  cbn [one_number]. rewrite kv_rows, one_numbers, map_map_MR.
  destruct (storable_length _ _ Stn) as [L1 L2]. rewrite Ew, Er in L2. rewrite Er in L1. change (sp_cps (as_nurbs s)) with (sp_cps s) in L1.
  assert (fold_right Z.mul 1%Z (map (fun k : Z * Z * list Qc => snd (fst k))
     (map (fun a => (Z.of_nat (ax_degree a), Z.of_nat (ax_n a), ax_kv a)) (sp_axes (as_nurbs s)))) = Z.of_nat (prodn (sp_res s))) as ->.
  { rewrite <- Er. unfold sp_res. rewrite map_map. cbn [fst snd]. generalize (sp_axes (as_nurbs s)). intros l.
    induction l as [|a l IH]; [easy|]. cbn [map fold_right prodn]. rewrite IH. now rewrite Nat2Z.inj_mul. }
  rewrite (Permutation_length Pp), (Permutation_length Pw), L1, L2, Z.eqb_refl. cbn [negb orb].
  rewrite map_length. replace (length (sp_axes (as_nurbs s))) with (length (sp_axes s)) by (cbn; now rewrite map_length).
  replace (qeqb (num_value (MI (Z.of_nat (length (sp_axes s))))) (inj (length (sp_axes s)))) with true
    by (symmetry; apply (reflect_iff _ _ (qeqb_spec _ _)); reflexivity).
  cbn [negb].
  pose proof (nurbs_like_points limit _ w p' w' NL Pp) as NL'.
  specialize (NL' (Permutation_length Pw)).
  pose proof (nurbs_generic _ _ _ NL') as G. unfold core_degrees, core_kvs in G. cbn [sp_axes sp_cps] in G.
  rewrite !map_map. cbn [fst snd]. change (fun x : paxis => ax_kv x) with ax_kv. rewrite G.
  change (sp_res (Spl (sp_axes (as_nurbs s)) p' (Some w'))) with (sp_res (as_nurbs s)). rewrite Er, Ed, Bp, Bw.
  destruct (overwrite_ok p' w' (sp_cps s) w) as (c & Ec & Rc & Wc).
  - rewrite (Permutation_length Pp), (Permutation_length Pw). lia.
  - now rewrite (Permutation_length Pp).
  - now rewrite (Permutation_length Pw).
  - now apply (Permutation_Forall (Permutation_sym Pw)).
  - easy.
  - rewrite Ec, Rc, Wc. cbn [sp_axes]. do 2 f_equal. rewrite <- Ew. reflexivity.
Qed.

(** * Solutions *)
Definition solution_rows (res : list nat) (values : list (list Qc)) (f : list mline) : Prop :=
  exists ids inv rows, dof_mapping res = Some (ids, inv) /\ take values ids = Some rows /\ after_ordering f = map (map MR) rows.
Lemma export_solution limit s : storable limit s -> mfem_shape (sp_res s) ->
  exists f, export_mfem s = Some f /\ solution_rows (sp_res s) (sp_cps s) f.
Proof.
  intros St M. pose proof (as_nurbs_like limit s St) as NL.
  set (w := match sp_weights s with Some w => w | None => repeat 1%Qc (length (sp_cps s)) end) in *. pose proof (as_nurbs_res s) as Er.
  destruct (mfem_like limit _ w NL) as (ids & Ed & P1 & P2); [now rewrite Er|].
  destruct (take_perm _ _ P1) as (p' & Ep & Pp & Bp). destruct (take_perm _ _ P2) as (w' & Ew' & Pw & Bw).
  pose proof NL as (Stn & Ew & K). rewrite Er in Ed.
  destruct (export_ok s w Ew M _ _ _ _ Ed Ew' Ep) as (top & Et & Ex).
  eexists. split; [exact Ex|]. exists ids, (argsort ids), p'. split; [easy|]. split; [exact Ep|].
  cbn [app after_ordering zs]. rewrite (topology_after _ _ _ Et). cbn [app after_ordering].
  rewrite after_rows. cbn [app after_ordering]. rewrite after_rows. cbn [app after_ordering].
  clear. induction (map (map MR) p'); cbn; congruence.
Qed.
Lemma read_ok limit f reference w values dim : storable limit reference -> sp_weights reference = Some w ->
  Forall (fun a => exists p kv, a = KnotAxis p kv) (sp_axes reference) ->
  Forall (fun x => x <> 0%Qc) w -> mfem_shape (sp_res reference) ->
  length values = length (sp_cps reference) -> 0 < dim -> Forall (fun r => length r = dim) values ->
  solution_rows (sp_res reference) values f ->
  exists ids inv w', dof_mapping (sp_res reference) = Some (ids, inv) /\ take w inv = Some w' /\
    read_solution limit f reference = Some (Spl (sp_axes reference) values (Some w')).
Proof.
  intros St Ew K Fw M Lv D R (ids0 & inv0 & rows & Ed0 & Et & Ef).
  assert (nurbs_like limit reference w) as NL by (split; auto).
  destruct (mfem_like limit _ w NL M) as (ids & Ed & P1 & P2). rewrite Ed in Ed0. injection Ed0 as <- <-.
  rewrite <- Lv in P1. destruct (take_perm _ _ P1) as (p' & Ep & Pp & Bp). rewrite Ep in Et. injection Et as <-.
  assert (Permutation (argsort ids) (seq 0 (length w))) as Pi.
  { rewrite <- (perm_length _ _ P2). apply argsort_perm. }
  destruct (take_perm _ _ Pi) as (w' & Ew' & Pw & _).
  exists ids, (argsort ids), w'. split; [exact Ed|]. split; [exact Ew'|].
  unfold read_solution. rewrite Ef, map_map_MR, (Permutation_length Pp), Lv, Nat.eqb_refl. cbn [negb].
  rewrite Ed, Ew, Bp, Ew'.
  pose proof (nurbs_generic limit (Spl (sp_axes reference) values (Some w)) w (nurbs_like_values _ _ _ _ _ NL Lv D R)) as G.
  change (core_degrees (Spl (sp_axes reference) values (Some w))) with (core_degrees reference) in G.
  change (core_kvs (Spl (sp_axes reference) values (Some w))) with (core_kvs reference) in G.
  cbn [sp_cps] in G. rewrite G.
  destruct (storable_length _ _ St) as [L1 L2]. rewrite Ew in L2.
  destruct (overwrite_ws_ok values w w') as (c & Ec & Rc & Wc).
  - lia.
  - now apply Permutation_length.
  - easy.
  - now apply (Permutation_Forall (Permutation_sym Pw)).
  - rewrite Ec, Rc, Wc. reflexivity.
Qed.

(** * Corners of cartesian meshes *)
Definition corner_bits (d : nat) : list (list bool) :=
  if d =? 2 then [[false; false]; [true; false]; [true; true]; [false; true]]
  else [[false; false; false]; [true; false; false]; [true; true; false]; [false; true; false];
        [false; false; true]; [true; false; true]; [true; true; true]; [false; true; true]].
Lemma corner_ids_bits cmr : (length cmr = 2 \/ length cmr = 3) -> Forall (fun n => 1 <= n) cmr ->
  corner_ids cmr = map (at_corner cmr) (corner_bits (length cmr)).
Proof.
  intros [L|L] F.
  - destruct cmr as [|a [|b [|]]]; try easy. inversion F as [|? ? Ha F']. inversion F' as [|? ? Hb _]. subst.
    unfold at_corner, flat_id, stride. cbn [length Nat.eqb corner_bits corner_ids map combine snd fst seq nth firstn fold_right].
    destruct a as [|a]; [lia|]. destruct b as [|b]; [lia|]. cbn [Nat.sub]. rewrite !Nat.sub_0_r. repeat (apply f_equal2; [nia|]). easy.
  - destruct cmr as [|a [|b [|c [|]]]]; try easy. inversion F as [|? ? Ha F']. inversion F' as [|? ? Hb F'']. inversion F'' as [|? ? Hc _]. subst.
    unfold at_corner, flat_id, stride. cbn [length Nat.eqb corner_bits corner_ids map combine snd fst seq nth firstn fold_right].
    destruct a as [|a]; [lia|]. destruct b as [|b]; [lia|]. destruct c as [|c]; [lia|]. cbn [Nat.sub]. rewrite !Nat.sub_0_r. repeat (apply f_equal2; [nia|]). easy.
Qed.
Definition face_tuple (d f : nat) : list nat := nth (nth f (mfem_face d) 0) (sub_element_vertices d) [].

Ltac perm_solve := repeat (first [apply perm_nil | match goal with |- Permutation (?x :: ?l) ?r =>
   let rec go acc r := lazymatch r with
     | x :: ?r' => apply (Permutation_cons_app acc r' x)
     | ?y :: ?r' => go (acc ++ [y]) r' end in
   go (@nil (list bool)) r end; cbn [app]]).
Lemma face_tuple_bits d f : d = 2 \/ d = 3 -> f < 2 * d ->
  Permutation (map (fun k => nth k (corner_bits d) []) (face_tuple d f)) (face_bits d f) /\
  around (map (fun k => nth k (corner_bits d) []) (face_tuple d f)) /\
  Forall (fun k => k < per_element d) (face_tuple d f) /\ length (corner_bits d) = per_element d.
Proof.
  intros [-> | ->] H.
  - do 4 (destruct f as [|f]; [vm_compute; split; [perm_solve|split; [auto|split; [repeat constructor|reflexivity]]]|]). lia.
  - do 6 (destruct f as [|f]; [vm_compute; split; [perm_solve|split; [auto 8|split; [repeat constructor|reflexivity]]]|]). lia.
Qed.

Lemma nth_concat_uniform {A} n (ls : list (list A)) : Forall (fun l => length l = n) ls ->
  forall e k, k < n -> nth_error (concat ls) (e * n + k) = match nth_error ls e with Some l => nth_error l k | None => None end.
Proof.
  induction 1 as [|l ls L F IH]; intros e k Hk.
  - cbn. destruct (e * n + k), e; reflexivity.
  - destruct e as [|e]; cbn [concat nth_error].
    + rewrite nth_error_app1; [f_equal; lia|lia].
    + rewrite nth_error_app2 by (rewrite L; nia). replace (S e * n + k - length l) with (e * n + k) by (rewrite L; nia). now apply IH.
Qed.
Lemma corner_vertex {A} (point : nat -> nat -> A) d cmrs : d = 2 \/ d = 3 ->
  Forall (fun c => length c = d /\ Forall (fun n => 1 <= n) c) cmrs ->
  forall e k, e < length cmrs -> k < per_element d ->
  nth_error (corner_vertices point cmrs) (e * per_element d + k) =
    Some (point e (at_corner (nth e cmrs []) (nth k (corner_bits d) []))).
Proof.
  intros Hd F e k He Hk. unfold corner_vertices.
  assert (length (corner_bits d) = per_element d) as Lb by (destruct Hd as [-> | ->]; reflexivity).
  rewrite nth_concat_uniform; [|apply Forall_map, Forall_forall|easy].
  2:{ intros [i c] H. apply in_enumerate in H as [_ H]. cbn [snd]. apply nth_error_In in H. rewrite Forall_forall in F.
      destruct (F c H) as [L G]. rewrite map_length, corner_ids_bits, map_length; [congruence| |easy]. rewrite L. exact Hd. }
  rewrite nth_error_map.
  assert (nth_error (combine (seq 0 (length cmrs)) cmrs) e = Some (e, nth e cmrs [])) as ->.
  { erewrite nth_error_nth' with (d := (0, [])) by (rewrite combine_length, seq_length; lia).
    rewrite combine_nth by apply seq_length. now rewrite seq_nth. }
  cbn [option_map fst snd]. rewrite Forall_forall in F. destruct (F (nth e cmrs [])) as [L G]; [now apply nth_In|].
  rewrite corner_ids_bits by (auto; rewrite L; exact Hd). rewrite L, !nth_error_map.
  erewrite nth_error_nth' with (d := []) by lia. reflexivity.
Qed.

Definition line_ok {A} (point : nat -> nat -> A) (d : nat) (cmrs : list (list nat)) (inverse : list nat)
  (n : nat * nat * Z) (line : Z * list nat) : Prop :=
  let '(e, f, z) := n in
  fst line = (- z)%Z /\
  exists bits js, Permutation bits (face_bits d f) /\ around bits /\
    Forall2 (fun b j => nth_error (corner_vertices point cmrs) j = Some (point e (at_corner (nth e cmrs []) b))) bits js /\
    snd line = map (fun j => nth j inverse 0) js.
Lemma one_line {A} (point : nat -> nat -> A) d cmrs inverse e f z : d = 2 \/ d = 3 ->
  Forall (fun c => length c = d /\ Forall (fun n => 1 <= n) c) cmrs -> e < length cmrs -> f < 2 * d ->
  line_ok point d cmrs inverse (e, f, z)
    ((- z)%Z, map (fun k => nth (e * per_element d + k) inverse 0) (nth (nth f (mfem_face d) 0) (sub_element_vertices d) [])).
Proof.
  intros Hd F He Hf. destruct (face_tuple_bits d f Hd Hf) as (P & C & K & _). fold (face_tuple d f).
  unfold line_ok. cbn [fst snd]. split; [easy|].
  exists (map (fun k => nth k (corner_bits d) []) (face_tuple d f)), (map (fun k => e * per_element d + k) (face_tuple d f)).
  refine (conj P (conj C (conj _ _))).
  - clear P C. induction K as [|k l Hk K IH]; cbn; constructor; auto. now apply corner_vertex.
  - now rewrite map_map.
Qed.
Lemma row_lines {A} (point : nat -> nat -> A) d cmrs inverse e : d = 2 \/ d = 3 ->
  Forall (fun c => length c = d /\ Forall (fun n => 1 <= n) c) cmrs -> e < length cmrs ->
  forall row f, f + length row <= 2 * d ->
  Forall2 (line_ok point d cmrs inverse) (row_negatives e f row)
    (concat (map (fun fc : nat * Z => if (snd fc <? 0)%Z
      then [((- snd fc)%Z, map (fun k => nth (e * per_element d + k) inverse 0)
                 (nth (nth (fst fc) (mfem_face d) 0) (sub_element_vertices d) []))]
      else []) (combine (seq f (length row)) row))).
Proof.
  intros Hd F He. induction row as [|z row IH]; intros f Hf; cbn [length seq combine map concat row_negatives snd fst]; [constructor|].
  cbn [length] in Hf. destruct (z <? 0)%Z; cbn [app].
  - constructor; [apply one_line; auto; lia|]. apply IH. lia.
  - apply IH. lia.
Qed.
Lemma all_lines {A} (point : nat -> nat -> A) d cmrs inverse table : d = 2 \/ d = 3 ->
  Forall (fun c => length c = d /\ Forall (fun n => 1 <= n) c) cmrs -> length table = length cmrs ->
  Forall (fun row => length row = 2 * d) table ->
  Forall2 (line_ok point d cmrs inverse) (negatives 0 table) (boundary_lines d inverse table).
Proof.
  intros Hd F L R. unfold boundary_lines.
  enough (forall t e, e + length t <= length cmrs -> Forall (fun row => length row = 2 * d) t ->
    Forall2 (line_ok point d cmrs inverse) (negatives e t)
     (concat (map (fun er : nat * list Z => concat (map (fun fc : nat * Z => if (snd fc <? 0)%Z
      then [((- snd fc)%Z, map (fun k => nth (fst er * per_element d + k) inverse 0)
                 (nth (nth (fst fc) (mfem_face d) 0) (sub_element_vertices d) []))]
      else []) (combine (seq 0 (length (snd er))) (snd er)))) (combine (seq e (length t)) t)))) as H by (apply H; [lia|easy]).
  clear R L table. induction t as [|row t IH]; intros e He R; cbn [length seq combine map concat negatives snd fst]; [constructor|].
  inversion R; subst. cbn [length] in He. apply Forall2_app.
  - apply row_lines; auto; lia.
  - apply IH; [lia|easy].
Qed.

(** * Values *)
Lemma nurbs_of_n a b : match a with
    | KnotAxis _ _ => b = a | BezierAxis p => b = KnotAxis p (repeat 0%Qc (p + 1) ++ repeat 1%Qc (p + 1)) end -> ax_n b = ax_n a.
Proof. destruct a as [p|p kv]; intros ->; [|easy]. apply (nurbs_axis_n (BezierAxis p)). Qed.
Lemma nurbs_values s t us d : nurbs_of s t -> sp_wf s -> sp_domain s us -> sp_value t us d = sp_value s us d.
Proof.
  intros (E1 & E2 & F) (W & L1 & L2) D.
  assert (sp_res t = sp_res s) as Er.
  { unfold sp_res. clear - F. induction F as [|a b l l' H F IH]; cbn; [easy|]. now rewrite (nurbs_of_n _ _ H), IH. }
  assert (forall c, tensor (sp_basis (sp_axes t) us) c = tensor (sp_basis (sp_axes s) us) c) as Et.
  { intros c. symmetry. apply tensor_ext; [|easy]. unfold sp_basis. clear - F. revert us.
    induction F as [|a b l l' H F IH]; intros [|u us]; cbn; constructor; auto. cbn [fst snd].
    split; [symmetry; now apply nurbs_of_n|]. intros i Hi. destruct a as [p|p kv]; subst b; [|easy].
    cbn [ax_n] in Hi. symmetry. now apply bezier_knots_fun. }
  unfold sp_value. rewrite E1, E2, Er, !Et. destruct (sp_weights s) as [w|]; [easy|].
  unfold sp_domain in D.
  assert (map fst (sp_basis (sp_axes s) us) = sp_res s) as Em.
  { unfold sp_basis, sp_res. clear - D. induction D as [|a u l us _ D IH]; cbn; [easy|]. now rewrite IH. }
  assert (forall ix, valid_digits (sp_res s) ix -> nth (flat_id (sp_res s) ix) (repeat 1%Qc (length (sp_cps s))) 0%Qc = 1%Qc) as N1.
  { intros ix V. assert (flat_id (sp_res s) ix < length (sp_cps s)) as B.
    { rewrite L1, flat_id_undigits by now apply valid_length. rewrite fold_right_mul_prodn. now apply undigits_lt. }
    rewrite (nth_indep _ 0%Qc 1%Qc) by (now rewrite repeat_length). apply nth_repeat. }
  rewrite (tensor_ext_c _ _ (net (sp_res s) (sp_cps s) d)).
  2:{ intros ix V. rewrite Em in V. rewrite N1 by easy. ring. }
  rewrite (tensor_ext_c _ (fun ix => nth (flat_id (sp_res s) ix) (repeat 1%Qc (length (sp_cps s))) 0%Qc) (fun _ => 1%Qc)) by (intros ix V; rewrite Em in V; now apply N1).
  rewrite tensor_one.
  - field. discriminate.
  - unfold sp_basis. clear - W D. induction D as [|a u l us Da D IH]; cbn; constructor; inversion W; subst; auto. cbn [fst snd]. now apply ax_fun_sum.
Qed.

Lemma take_listed {A} (a : list A) ids rows : take a ids = Some rows <-> listed ids a rows.
Proof.
  unfold take, listed. revert rows. induction ids as [|i ids IH]; intros rows; cbn [map all_some].
  - split; [intros [= <-]; constructor|intros H; now inversion H].
  - split.
    + destruct (nth_error a i) as [x|] eqn:E; [|discriminate]. destruct (all_some _) as [l|] eqn:El; [|discriminate].
      intros [= <-]. constructor; [easy|]. now apply IH.
    + intros H. inversion H as [|? x ? l Hx Hl]; subst. rewrite Hx. apply IH in Hl. now rewrite Hl.
Qed.
Lemma file_rows ids res inv values f : dof_mapping res = Some (ids, inv) -> solution_file ids values f ->
  solution_rows res values f.
Proof.
  intros E (head & rows & -> & N & L). exists ids, inv, rows. split; [exact E|]. split; [now apply take_listed|].
  assert (after_ordering (head ++ Key KOrdering :: map (fun r => Row (map MR r)) rows) =
          after_ordering (Key KOrdering :: map (fun r => Row (map MR r)) rows)) as ->.
  { induction head as [|l head IH]; [easy|]. assert (~ In (Key KOrdering) head) as N' by (intros X; apply N; now right).
    rewrite <- (IH N'). cbn [app after_ordering]. destruct l as [k|r]; [|easy]. destruct k; try easy. exfalso. apply N. now left. }
  cbn [after_ordering]. clear. induction rows as [|r l IH]; cbn; congruence.
Qed.
Lemma dof_renumbering res : mfem_shape res -> exists ids inv, dof_mapping res = Some (ids, inv) /\
  renumbering (fold_right Nat.mul 1 res) ids inv.
Proof.
  intros (L & F). destruct (dof_permutation res L F) as (ids & E & P). exists ids, (argsort ids). split; [exact E|].
  rewrite fold_right_mul_prodn. set (n := prodn res) in *.
  pose proof (perm_length _ _ P) as Ln. pose proof (argsort_perm ids) as Pa. rewrite Ln in Pa.
  pose proof (perm_length _ _ Pa) as La.
  assert (forall k, k < n -> nth k (argsort ids) 0 < n) as B.
  { intros k Hk. pose proof (perm_bound _ _ Pa) as X. rewrite Forall_forall in X. apply X, nth_In. lia. }
  assert (forall k, k < n -> nth k ids 0 < n) as B'.
  { intros k Hk. pose proof (perm_bound _ _ P) as X. rewrite Forall_forall in X. apply X, nth_In. lia. }
  assert (forall k, k < n -> nth (nth k (argsort ids) 0) ids 0 = k) as I.
  { intros k Hk. pose proof (argsort_inverse ids n P) as X. apply (f_equal (fun l => nth k l 0)) in X.
    rewrite seq_nth in X by easy. rewrite (nth_indep _ 0 (nth 0 ids 0)) in X by (rewrite map_length; lia).
    rewrite (map_nth (fun i => nth i ids 0)) in X. exact X. }
  split; [exact P|]. split; [exact La|]. intros k Hk. split; [auto|]. split; [auto|].
  apply (NoDup_nth ids 0).
  - apply (Permutation_NoDup (Permutation_sym P)), seq_NoDup.
  - rewrite Ln. auto.
  - rewrite Ln. auto.
  - auto.
Qed.
