(** Proofs about the lines drawn for a spline. *)
From Coq Require Import List Arith ZArith QArith Qcanon Lia Sorted.
From Verif Require Import Base BaseRadix BaseQc S_Spline S_Value S_Knots M_Grid M_Knots M_Edges S_Edges P_Grid P_Knots P_Extract P_FitLs.
Import ListNotations.
Local Open Scope list_scope.
Local Open Scope nat_scope.

(** Rows of the product, first factor fastest. *)
Fixpoint rows {A} (l : list (list A)) : list (list A) :=
  match l with [] => [[]] | a :: l => flat_map (fun o => map (fun x => x :: o) a) (rows l) end.

Lemma cp_snoc {A} (l : list (list A)) a : cp_block (l ++ [a]) = flat_map (fun r => map (fun x => r ++ [x]) a) (cp_block l).
Proof.
  induction l as [|b l IH]; cbn [app cp_block flat_map map].
  - rewrite app_nil_r. induction a; cbn; congruence.
  - rewrite IH. clear IH. induction b as [|x b IH]; [reflexivity|]. cbn [flat_map]. rewrite flat_map_app, IH. f_equal.
    clear IH. induction (cp_block l) as [|r t IHt]; [reflexivity|]. cbn [flat_map map]. rewrite map_app, IHt, map_map. reflexivity.
Qed.

Lemma rows_cp {A} (l : list (list A)) : map (@rev A) (cp_block (rev l)) = rows l.
Proof.
  induction l as [|a l IH]; [reflexivity|]. cbn [rev rows]. rewrite cp_snoc, <- IH.
  clear IH. induction (cp_block (rev l)) as [|r t IHt]; [reflexivity|]. cbn [flat_map map]. rewrite map_app, IHt, map_map. f_equal.
  apply map_ext. intro x. now rewrite rev_app_distr.
Qed.

Lemma in_rows {A} (l : list (list A)) o : In o (rows l) <-> Forall2 (fun K x => In x K) l o.
Proof.
  revert o. induction l as [|a l IH]; intro o; cbn [rows].
  - split; [intros [<-|[]]; constructor | intro F; inversion F; now left].
  - rewrite in_flat_map. split.
    + intros (t & I & J). apply in_map_iff in J. destruct J as (x & <- & J). constructor; [exact J | now apply IH].
    + intro F. inversion F as [|? x ? t J F']; subst. exists t. split; [now apply IH | now apply in_map_iff; exists x].
Qed.

Lemma rows_length {A} (l : list (list A)) : length (rows l) = fold_right Nat.mul 1 (map (@length A) l).
Proof.
  induction l as [|a l IH]; [reflexivity|]. cbn [rows map fold_right]. rewrite <- IH.
  clear IH. induction (rows l) as [|t r IHr]; cbn [flat_map]; [now rewrite Nat.mul_0_r|]. rewrite app_length, map_length, IHr. cbn [length]. lia.
Qed.

Lemma rows_nodup {A} (l : list (list A)) : Forall (@NoDup A) l -> NoDup (rows l).
Proof.
  induction l as [|a l IH]; intro F; cbn [rows]; [constructor; [intros []|constructor]|].
  inversion F as [|? ? Na Fl]; subst. specialize (IH Fl). clear F Fl.
  induction (rows l) as [|t r IHr]; [constructor|]. inversion IH as [|? ? Nt Nr]; subst. cbn [flat_map].
  assert (D : forall x o, In (x :: o) (flat_map (fun o => map (fun x => x :: o) a) r) -> In o r).
  { intros x o I. apply in_flat_map in I. destruct I as (o' & I & J). apply in_map_iff in J. destruct J as (y & E & _). injection E as _ <-. exact I. }
  specialize (IHr Nr). clear -Na Nt IHr D. revert D IHr. generalize (flat_map (fun o => map (fun x => x :: o) a) r) as L. intros L D NL.
  induction a as [|x a IH]; [exact NL|]. inversion Na as [|? ? Nx Na']; subst. cbn. constructor.
  - intro I. apply in_app_iff in I. destruct I as [I|I].
    + apply in_map_iff in I. destruct I as (y & E & I). injection E as ->. contradiction.
    + apply D in I. contradiction.
  - exact (IH Na').
Qed.

(** Blocks of constant length. *)
Lemma nth_error_blocks {A B} (f : A -> list B) r l k j x : (forall a, length (f a) = r) -> nth_error l k = Some x -> j < r ->
  nth_error (flat_map f l) (r * k + j) = nth_error (f x) j.
Proof.
  intros L. revert k. induction l as [|a l IH]; intros [|k] E Hj; try discriminate; cbn [flat_map].
  - injection E as ->. rewrite nth_error_app1 by (rewrite L; lia). f_equal. lia.
  - rewrite nth_error_app2 by (rewrite L; nia). rewrite L. rewrite <- (IH k E Hj). f_equal. nia.
Qed.

Lemma blocks_length {A B} (f : A -> list B) r l : (forall a, length (f a) = r) -> length (flat_map f l) = r * length l.
Proof. intros L. induction l as [|a l IH]; cbn [flat_map length]; [lia|]. rewrite app_length, L, IH. lia. Qed.

(** The column permutation. *)
Lemma map_nth_seq {A} (d : A) (l : list A) b n : b + n <= length l -> map (fun c => nth c l d) (seq b n) = firstn n (skipn b l).
Proof.
  revert b. induction n as [|n IH]; intros b H; [reflexivity|]. cbn [seq map]. rewrite IH by lia.
  destruct (skipn b l) as [|y t] eqn:E. { apply (f_equal (@length A)) in E. rewrite skipn_length in E. cbn in E. lia. }
  assert (E1 : nth b l d = y). { rewrite <- (firstn_skipn b l), E, app_nth2; rewrite firstn_length, Nat.min_l by lia; [now rewrite Nat.sub_diag | lia]. }
  assert (E2 : skipn (S b) l = t).
  { clear - E. revert l E. induction b as [|b IHb]; intros [|z l] E; cbn in *; try discriminate; [now injection E | exact (IHb l E)]. }
  rewrite E1, E2. reflexivity.
Qed.

Lemma reorder_insert {A} (d : A) x o n i : length o = n - 1 -> i < n ->
  map (fun c => nth c (x :: o) d) (reorder_mask n i) = insert_at i x o.
Proof.
  intros L H. unfold reorder_mask, insert_at. rewrite !map_app. cbn [map app]. change (nth 0 (x :: o) d) with x.
  rewrite map_nth_seq by (cbn [length]; lia). rewrite map_nth_seq by (cbn [length]; lia). cbn [skipn]. f_equal. f_equal.
  apply firstn_all2. rewrite skipn_length. lia.
Qed.

(** gustaf's concatenation *)
Definition before {A} (ms : list (list A * list (nat * nat))) (i : nat) : nat := length (concat (map fst (firstn i ms))).

Lemma concat_vertices ms k : fst (concat_meshes k ms) = concat (map fst ms).
Proof.
  revert k. induction ms as [|[v e] ms IH]; intro k; [reflexivity|]. cbn [concat_meshes map concat fst].
  specialize (IH (k + length v)). destruct (concat_meshes (k + length v) ms) as [vs es]. cbn in *. now rewrite IH.
Qed.

Lemma concat_edges ms k a b : In (a, b) (snd (concat_meshes k ms)) <->
  exists i m x y, nth_error ms i = Some m /\ In (x, y) (snd m) /\ a = k + before ms i + x /\ b = k + before ms i + y.
Proof.
  revert k. induction ms as [|[v e] ms IH]; intro k; cbn [concat_meshes].
  - split; [intros []|]. intros ([|i] & m & x & y & E & _); discriminate.
  - specialize (IH (k + length v)). destruct (concat_meshes (k + length v) ms) as [vs es]. cbn [snd] in *. rewrite in_app_iff, IH. split.
    + intros [I|(i & m & x & y & E & I & -> & ->)].
      * apply in_map_iff in I. destruct I as ((x & y) & E & I). unfold move_edge in E. cbn [fst snd] in E. injection E as <- <-.
        exists 0, (v, e), x, y. unfold before. cbn. repeat split; auto; lia.
      * exists (S i), m, x, y. unfold before. cbn [firstn map concat fst]. rewrite app_length. repeat split; auto; lia.
    + intros ([|i] & m & x & y & E & I & -> & ->).
      * injection E as <-. left. apply in_map_iff. exists (x, y). unfold move_edge, before. cbn. split; [f_equal; lia | exact I].
      * right. exists i, m, x, y. unfold before. cbn [firstn map concat fst]. rewrite app_length. repeat split; auto; lia.
Qed.

Lemma before_nth {A} (ms : list (list A * list (nat * nat))) i m x : nth_error ms i = Some m -> x < length (fst m) ->
  nth_error (concat (map fst ms)) (before ms i + x) = nth_error (fst m) x.
Proof.
  revert i. induction ms as [|h ms IH]; intros [|i] E H; try discriminate.
  - injection E as ->. unfold before. cbn. now rewrite nth_error_app1.
  - unfold before. cbn [firstn map concat]. rewrite app_length, nth_error_app2 by lia.
    rewrite <- (IH i E H). f_equal. unfold before. lia.
Qed.

Lemma before_step {A} (ms : list (list A * list (nat * nat))) i k m : nth_error ms i = Some m -> i < k -> before ms i + length (fst m) <= before ms k.
Proof.
  revert i k. induction ms as [|h ms IH]; intros [|i] [|k] E H; try discriminate; try lia.
  - injection E as ->. unfold before. cbn. rewrite app_length. lia.
  - specialize (IH i k E ltac:(lia)). unfold before in *. cbn [firstn map concat]. rewrite !app_length. lia.
Qed.

Lemma before_inj {A} (ms : list (list A * list (nat * nat))) i k m m' x y :
  nth_error ms i = Some m -> nth_error ms k = Some m' -> x < length (fst m) -> y < length (fst m') ->
  before ms i + x = before ms k + y -> i = k /\ x = y.
Proof.
  intros E E' H H' Q. destruct (Nat.lt_trichotomy i k) as [G|[->|G]].
  - pose proof (before_step ms i k m E G). lia.
  - split; [reflexivity | lia].
  - pose proof (before_step ms k i m' E' G). lia.
Qed.

Lemma concat_nodup ms k : Forall (fun m => NoDup (snd m) /\ forall x y, In (x, y) (snd m) -> x < length (fst m)) ms -> NoDup (snd (concat_meshes k ms)).
Proof.
  revert k. induction ms as [|[v e] ms IH]; intros k F; cbn [concat_meshes]; [constructor|].
  inversion F as [|? ? (N & B) F']; subst. specialize (IH (k + length v) F').
  pose proof (fun a b => proj1 (concat_edges ms (k + length v) a b)) as P.
  destruct (concat_meshes (k + length v) ms) as [vs es]. cbn [snd fst] in *.
  assert (J : forall p, In p (map (move_edge k) e) -> fst p < k + length v).
  { intros p I. apply in_map_iff in I. destruct I as ((x & y) & <- & I). apply B in I. cbn. lia. }
  assert (D : forall p, In p es -> k + length v <= fst p).
  { intros (a, b) I. apply P in I. destruct I as (i & m & x & y & _ & _ & -> & _). cbn. lia. }
  assert (N' : NoDup (map (move_edge k) e)).
  { clear -N. induction N as [|p e Np N IH]; cbn; constructor; auto. intro I. apply in_map_iff in I. destruct I as (q & E & I).
    assert (p = q) as -> by (destruct p, q; unfold move_edge in E; cbn in E; injection E as ? ?; f_equal; lia). contradiction. }
  revert N' J D IH. generalize (map (move_edge k) e) as L. clear. intros L NL J D N.
  induction L as [|p L IHL]; [exact N|]. inversion NL as [|? ? Np NL']; subst. cbn. constructor.
  - intro I. apply in_app_iff in I. destruct I as [I|I]; [contradiction|]. specialize (D _ I). specialize (J p (or_introl eq_refl)). lia.
  - apply IHL; auto. intros q I. apply J. now right.
Qed.

Lemma before_cover {A} (ms : list (list A * list (nat * nat))) v : v < length (concat (map fst ms)) ->
  exists i m x, nth_error ms i = Some m /\ x < length (fst m) /\ v = before ms i + x.
Proof.
  revert v. induction ms as [|h ms IH]; intros v H; [cbn in H; lia|]. cbn [map concat] in H. rewrite app_length in H.
  destruct (Nat.lt_ge_cases v (length (fst h))) as [G|G].
  - exists 0, h, v. now repeat split.
  - destruct (IH (v - length (fst h)) ltac:(lia)) as (i & m & x & E & X & Q). exists (S i), m, x. repeat split; auto.
    unfold before in *. cbn [firstn map concat]. rewrite app_length. lia.
Qed.

(** The edges of the parallel lines of one axis. *)
Definition line_edges (r n : nat) : list (nat * nat) := concat (map (fun j => map (move_edge (r * j)) (range_to_edges r)) (seq 0 n)).

Lemma in_range r x y : In (x, y) (range_to_edges r) <-> y = S x /\ S x < r.
Proof.
  unfold range_to_edges. rewrite in_map_iff. split.
  - intros (j & E & I). injection E as <- <-. apply in_seq in I. lia.
  - intros (-> & H). exists x. split; [reflexivity | apply in_seq; lia].
Qed.

Lemma in_line_edges r n x y : In (x, y) (line_edges r n) <-> exists k j, k < n /\ S j < r /\ x = r * k + j /\ y = r * k + S j.
Proof.
  unfold line_edges. rewrite in_concat. split.
  - intros (l & I & J). apply in_map_iff in I. destruct I as (k & <- & I). apply in_seq in I. apply in_map_iff in J.
    destruct J as ((a & b) & E & J). apply in_range in J. destruct J as (-> & J). unfold move_edge in E. cbn in E. injection E as <- <-.
    exists k, a. lia.
  - intros (k & j & H & J & -> & ->). exists (map (move_edge (r * k)) (range_to_edges r)). split.
    + apply in_map_iff. exists k. split; [reflexivity | apply in_seq; lia].
    + apply in_map_iff. exists (j, S j). split; [unfold move_edge; cbn [fst snd]; f_equal; lia | now apply in_range].
Qed.

Lemma line_edges_concat r n : line_edges r n = snd (concat_meshes 0 (repeat (repeat [] r, range_to_edges r) n)).
Proof.
  unfold line_edges.
  assert (G : forall k, concat (map (fun j => map (move_edge (k + r * j)) (range_to_edges r)) (seq 0 n)) =
                        snd (concat_meshes k (repeat (repeat [] r, range_to_edges r) n))).
  { induction n as [|n IH]; intro k; [reflexivity|]. cbn [repeat concat_meshes seq map concat].
    specialize (IH (k + r)). rewrite repeat_length. destruct (concat_meshes (k + r) (repeat (repeat [] r, range_to_edges r) n)) as [vs es]. cbn [snd] in *.
    rewrite <- IH, <- seq_shift, map_map. f_equal; [now rewrite Nat.mul_0_r, Nat.add_0_r|]. f_equal. apply map_ext. intro j. f_equal. f_equal. lia. }
  rewrite <- (G 0). reflexivity.
Qed.

Lemma line_edges_nodup r n : NoDup (line_edges r n).
Proof.
  rewrite line_edges_concat. apply concat_nodup. apply Forall_forall. intros m I. apply repeat_spec in I. subst m. cbn [fst snd]. split.
  - unfold range_to_edges. assert (G : NoDup (seq 0 (r - 1))) by apply seq_NoDup. revert G. generalize (seq 0 (r - 1)) as l. intros l N.
    induction N as [|x l Nx N IH]; cbn; constructor; auto. intro I. apply in_map_iff in I. destruct I as (y & E & I). injection E as <-. contradiction.
  - intros x y I. apply in_range in I. rewrite repeat_length. lia.
Qed.

(** Number of a line among the parallel ones. *)
Fixpoint number (o : list Qc) (l : list (list Qc)) : nat :=
  match l with [] => 0 | x :: l => if list_eq_dec Qc_eq_dec o x then 0 else S (number o l) end.

Lemma number_nth o l : In o l -> nth_error l (number o l) = Some o.
Proof.
  induction l as [|x l IH]; intro I; [easy|]. cbn. destruct (list_eq_dec Qc_eq_dec o x) as [->|N]; [reflexivity|].
  destruct I as [->|I]; [congruence | now apply IH].
Qed.

Lemma nth_number o l k : NoDup l -> nth_error l k = Some o -> number o l = k.
Proof.
  intros N E. assert (I : In o l) by (eapply nth_error_In; eassumption). pose proof (number_nth o l I) as E'.
  apply (proj1 (NoDup_nth_error l) N).
  - apply nth_error_Some. congruence.
  - congruence.
Qed.

(** What the lines of one axis are. *)
Lemma Forall2_len {A B} (R : A -> B -> Prop) l o : Forall2 R l o -> length l = length o.
Proof. induction 1; cbn; congruence. Qed.

Lemma remove_at_length {A} i (l : list A) : i < length l -> length (remove_at i l) = length l - 1.
Proof. intros H. unfold remove_at. rewrite app_length, firstn_length, skipn_length. lia. Qed.

Lemma relevant_length eps all s : length (relevant_knots eps all s) = length (sp_axes s).
Proof. unfold relevant_knots. destruct all; apply map_length. Qed.

Definition lines_of (eps : Qc) (all : bool) (s : spline) (i : nat) : list (list Qc) := rows (remove_at i (relevant_knots eps all s)).

Lemma axis_lines_is eval eps all s res i : i < length (sp_axes s) ->
  axis_lines eval eps all s res i =
  Some (map eval (flat_map (fun o => map (fun j => line_point s res i o j) (seq 0 (nth i res 0))) (lines_of eps all s i)),
        line_edges (nth i res 0) (length (lines_of eps all s i))).
Proof.
  intros H. unfold axis_lines, cartesian_product. rewrite rows_cp. unfold lines_of. rewrite rows_length. f_equal. f_equal. f_equal.
  cbn [rows]. assert (L : forall o, In o (rows (remove_at i (relevant_knots eps all s))) -> length o = length (sp_axes s) - 1).
  { intros o I. apply in_rows in I. apply Forall2_len in I. rewrite remove_at_length in I by (rewrite relevant_length; exact H). rewrite relevant_length in I. lia. }
  revert L. generalize (rows (remove_at i (relevant_knots eps all s))) as R. induction R as [|o R IH]; intro L; [reflexivity|].
  cbn [flat_map]. rewrite map_app, IH by (intros; apply L; now right). f_equal. unfold linspace. rewrite !map_map. apply map_ext. intro j.
  rewrite reorder_insert; [reflexivity | apply L; now left | exact H].
Qed.

Definition separate (eps : Qc) (all : bool) (a : paxis) : Prop :=
  match a with BezierAxis _ => True | KnotAxis _ kv => if all then apart eps kv else True end.

Lemma crossing_in eps all a : (0 < eps)%Qc -> ax_wf a -> separate eps all a ->
  let K := if all then axis_unique eps a else [ax_lower a; ax_upper a] in
  NoDup K /\ forall x, In x K <-> crossing all a x.
Proof.
  intros He W A. assert (two : forall x y : Qc, (x < y)%Qc -> NoDup [x; y]).
  { intros x y Q. constructor; [intros [->|[]] | constructor; [intros []|constructor]]. now apply Qclt_not_eq in Q. }
  destruct all; cbn [crossing].
  - destruct a as [p|p kv]; cbn [axis_unique].
    + split; [apply two; reflexivity|]. intro x. cbn. intuition.
    + cbn in W, A. destruct (unique_knots_exact eps p (ax_n (KnotAxis p kv)) kv He W A) as (SS & E & _). split; [|exact E].
      clear -SS. induction SS as [|x l SS IH F]; constructor; auto. intro I. rewrite Forall_forall in F. apply F in I. now apply Qclt_not_eq in I.
  - split; [apply two, lower_lt_upper, W|]. intro x. cbn. intuition.
Qed.

Lemma Forall2_map_in {A B} (f : A -> list B) (R : A -> B -> Prop) (l : list A) (o : list B) :
  (forall a, In a l -> forall x, In x (f a) <-> R a x) -> (Forall2 (fun K x => In x K) (map f l) o <-> Forall2 R l o).
Proof.
  revert o. induction l as [|a l IH]; intros o H; cbn [map].
  - split; intro F; inversion F; constructor.
  - split; intro F; inversion F; subst; constructor; try (apply H; [now left|assumption]); apply IH; auto; intros; apply H; now right.
Qed.

Lemma remove_at_map {A B} (f : A -> B) i l : remove_at i (map f l) = map f (remove_at i l).
Proof. unfold remove_at. now rewrite map_app, firstn_map, skipn_map. Qed.

Lemma in_remove_at {A} (x : A) i l : In x (remove_at i l) -> In x l.
Proof.
  unfold remove_at. intros I. apply in_app_iff in I. destruct I as [I|I].
  - rewrite <- (firstn_skipn i l). apply in_app_iff. now left.
  - rewrite <- (firstn_skipn (S i) l). apply in_app_iff. now right.
Qed.

Lemma lines_of_spec eps all s i : (0 < eps)%Qc -> Forall ax_wf (sp_axes s) -> Forall (separate eps all) (sp_axes s) ->
  NoDup (lines_of eps all s i) /\ forall o, In o (lines_of eps all s i) <-> Forall2 (crossing all) (remove_at i (sp_axes s)) o.
Proof.
  intros He W A. rewrite Forall_forall in W, A. set (f := fun a => if all then axis_unique eps a else [ax_lower a; ax_upper a]).
  assert (E : relevant_knots eps all s = map f (sp_axes s)) by (unfold relevant_knots, f; now destruct all).
  unfold lines_of. rewrite E, remove_at_map. split.
  - apply rows_nodup. apply Forall_forall. intros K I. apply in_map_iff in I. destruct I as (a & <- & I). apply in_remove_at in I.
    now apply (crossing_in eps all a He (W _ I) (A _ I)).
  - intro o. rewrite in_rows. apply Forall2_map_in. intros a I. apply in_remove_at in I.
    now apply (crossing_in eps all a He (W _ I) (A _ I)).
Qed.

Lemma edges_are_lines eval eps s res all :
  (0 < eps)%Qc -> Forall ax_wf (sp_axes s) -> Forall (separate eps all) (sp_axes s) -> 2 <= length (sp_axes s) ->
  exists V E (pos : nat -> list Qc -> nat -> nat), edges eval eps s res all = Some (V, E) /\
    (forall a b, In (a, b) E <-> exists i o j, is_line all s i o /\ S j < nth i res 0 /\ a = pos i o j /\ b = pos i o (S j)) /\
    (forall i o j, is_line all s i o -> j < nth i res 0 -> nth_error V (pos i o j) = Some (eval (line_point s res i o j))) /\
    (forall v, v < length V -> exists i o j, is_line all s i o /\ j < nth i res 0 /\ v = pos i o j) /\
    (forall i o j i' o' j', is_line all s i o -> is_line all s i' o' -> j < nth i res 0 -> j' < nth i' res 0 ->
       pos i o j = pos i' o' j' -> i = i' /\ o = o' /\ j = j') /\
    NoDup E.
Proof.
  intros He W A L.
  set (n := length (sp_axes s)) in *. set (R := lines_of eps all s).
  set (blk := fun i => (map eval (flat_map (fun o => map (fun j => line_point s res i o j) (seq 0 (nth i res 0))) (R i)), line_edges (nth i res 0) (length (R i)))).
  assert (RS : forall i, NoDup (R i) /\ forall o, In o (R i) <-> Forall2 (crossing all) (remove_at i (sp_axes s)) o) by (intro; now apply lines_of_spec).
  set (ms := map blk (seq 0 n)).
  assert (ED : edges eval eps s res all = Some (concat_meshes 0 ms)).
  { unfold edges. fold n. destruct (n =? 1) eqn:Q; [apply Nat.eqb_eq in Q; lia|].
    assert (Q2 : map (axis_lines eval eps all s res) (seq 0 n) = map Some ms).
    { unfold ms. rewrite map_map. apply map_ext_in. intros i I. apply in_seq in I. apply axis_lines_is. fold n. lia. }
    rewrite Q2. assert (Q3 : forall l : list mesh, all_some (map Some l) = Some l) by (intro l; induction l as [|x l IH]; cbn; [|rewrite IH]; reflexivity).
    now rewrite Q3. }
  assert (MS : forall i m, nth_error ms i = Some m <-> i < n /\ m = blk i).
  { intros i m. unfold ms. split.
    - intro Q. assert (Q' : i < n). { rewrite <- (seq_length n 0), <- (map_length blk). apply nth_error_Some. congruence. }
      split; [exact Q'|]. rewrite (map_nth_error blk i (seq 0 n) (d := i)) in Q; [congruence|]. rewrite nth_error_nth' with (d := 0) by (rewrite seq_length; lia). now rewrite seq_nth.
    - intros (Q & ->). apply map_nth_error. rewrite nth_error_nth' with (d := 0) by (rewrite seq_length; lia). now rewrite seq_nth. }
  assert (BL : forall i, length (fst (blk i)) = nth i res 0 * length (R i)).
  { intro i. unfold blk. cbn [fst]. rewrite map_length. apply blocks_length. intro o. now rewrite map_length, seq_length. }
  set (loc := fun i o j => nth i res 0 * number o (R i) + j).
  assert (NB : forall i o, is_line all s i o -> nth_error (R i) (number o (R i)) = Some o) by (intros i o (Hi & F); apply number_nth, RS, F).
  assert (LB : forall i o j, is_line all s i o -> j < nth i res 0 -> loc i o j < length (fst (blk i))).
  { intros i o j Q Hj. rewrite BL. unfold loc. assert (number o (R i) < length (R i)) by (apply nth_error_Some; rewrite (NB i o Q); discriminate). nia. }
  exists (fst (concat_meshes 0 ms)), (snd (concat_meshes 0 ms)), (fun i o j => before ms i + loc i o j). split; [|split; [|split; [|split; [|split]]]].
  - rewrite ED. now destruct (concat_meshes 0 ms).
  - intros a b. rewrite concat_edges. split.
    + intros (i & m & x & y & Q & I & -> & ->). apply MS in Q. destruct Q as (Hi & ->). unfold blk in I. cbn [snd] in I. apply in_line_edges in I.
      destruct I as (k & j & Hk & Hj & -> & ->). destruct (nth_error (R i) k) as [o|] eqn:Eo; [|apply nth_error_None in Eo; lia].
      exists i, o, j. assert (number o (R i) = k) as K by (apply nth_number; [apply RS | exact Eo]).
      split; [|split; [exact Hj|]]. { split; [exact Hi|]. apply RS. eapply nth_error_In, Eo. }
      unfold loc. rewrite K. lia.
    + intros (i & o & j & Q & Hj & -> & ->). exists i, (blk i), (loc i o j), (loc i o (S j)). split; [apply MS; split; [apply Q | reflexivity]|].
      split; [|lia]. unfold blk. cbn [snd]. apply in_line_edges. exists (number o (R i)), j.
      split; [apply nth_error_Some; rewrite (NB i o Q); discriminate|]. unfold loc. lia.
  - intros i o j Q Hj. rewrite concat_vertices. rewrite (before_nth ms i (blk i)); [|apply MS; split; [apply Q | reflexivity] | now apply LB].
    unfold blk. cbn [fst]. apply map_nth_error. unfold loc.
    rewrite (nth_error_blocks _ _ _ _ _ o); [|intro; now rewrite map_length, seq_length | now apply NB | exact Hj].
    apply map_nth_error. rewrite nth_error_nth' with (d := 0) by (rewrite seq_length; lia). now rewrite seq_nth.
  - intros v Hv. rewrite concat_vertices in Hv. apply before_cover in Hv. destruct Hv as (i & m & x & Q & Hx & ->).
    apply MS in Q. destruct Q as (Hi & ->). rewrite BL in Hx. set (r := nth i res 0) in *. assert (r <> 0) by (intro Z; rewrite Z in Hx; lia).
    pose proof (Nat.div_mod_eq x r). pose proof (Nat.mod_upper_bound x r ltac:(assumption)).
    destruct (nth_error (R i) (x / r)) as [o|] eqn:Eo.
    2:{ apply nth_error_None in Eo. assert (x / r < length (R i)) by (apply Nat.div_lt_upper_bound; lia). lia. }
    exists i, o, (x mod r). split; [|split; [assumption|]]. { split; [exact Hi|]. apply RS. eapply nth_error_In, Eo. }
    unfold loc. fold r. rewrite (nth_number o (R i) (x / r)); [lia | apply RS | exact Eo].
  - intros i o j i' o' j' Q Q' Hj Hj' E.
    destruct (before_inj ms i i' (blk i) (blk i') _ _ (proj2 (MS _ _) (conj (proj1 Q) eq_refl)) (proj2 (MS _ _) (conj (proj1 Q') eq_refl)) (LB _ _ _ Q Hj) (LB _ _ _ Q' Hj') E) as (<- & E').
    unfold loc in E'. assert (number o (R i) = number o' (R i) /\ j = j') as (N & ->).
    { pose proof (Nat.div_mod_unique). assert (number o (R i) = number o' (R i) /\ j = j'); [|assumption]. apply (Nat.div_mod_unique (nth i res 0)); lia. }
    split; [reflexivity|split; [|reflexivity]]. pose proof (NB i o Q) as B1. pose proof (NB i o' Q') as B2. rewrite N in B1. congruence.
  - apply concat_nodup. apply Forall_forall. intros m I. apply In_nth_error in I. destruct I as (i & I). apply MS in I. destruct I as (Hi & ->). split.
    + apply line_edges_nodup.
    + intros x y I. rewrite BL. unfold blk in I. cbn [snd] in I. apply in_line_edges in I. destruct I as (k & j & Hk & Hj & -> & _). nia.
Qed.

(** Curves *)
Lemma edges_of_curve eval eps s a r all :
  sp_axes s = [a] -> 2 <= r ->
  exists V E, edges eval eps s [r] all = Some (V, E) /\ length V = r /\
    (forall j, j < r -> nth_error V j = Some (eval (line_point s [r] 0 [] j))) /\
    (forall x y, In (x, y) E <-> y = S x /\ S x < r).
Proof.
  intros Ea Hr. unfold edges. rewrite Ea. cbn [length Nat.eqb fold_right map app]. rewrite Nat.max_0_r.
  destruct (grid_setup [ax_lower a; ax_upper a] [Z.of_nat r]) as [g|] eqn:G.
  2:{ apply grid_setup_error in G. inversion G as [? ? X|? ? X]; subst; [lia | inversion X]. }
  pose proof (grid_size_product _ _ _ G) as SZ. cbn [map fold_right] in SZ. rewrite Nat2Z.id, Nat.mul_1_r in SZ.
  eexists _, _. split; [reflexivity|]. split; [now rewrite map_length, seq_length, SZ|]. split; [|intros; apply in_range].
  intros j Hj. rewrite SZ. rewrite (map_nth_error _ j (seq 0 r) (d := j)).
  2:{ rewrite nth_error_nth' with (d := 0) by (rewrite seq_length; lia). now rewrite seq_nth. }
  f_equal. f_equal. unfold grid_setup in G. cbn [setup_axes length] in G. destruct (Z.of_nat r <? 2)%Z eqn:Q; [discriminate|]. injection G as <-.
  unfold id_to_grid_point. cbn [g_res g_entries id_to_point]. rewrite Nat2Z.id, Nat.mod_small by exact Hj.
  unfold line_point, insert_at. rewrite Ea. cbn [map nth firstn skipn app Nat.add]. f_equal.
  now apply linspace_nth.
Qed.

(** Multipatches *)
Lemma curve_mesh eval eps s r all m : length (sp_axes s) = 1 -> edges eval eps s r all = Some m ->
  length (fst m) = fold_right Nat.max 0 r /\ snd m = range_to_edges (fold_right Nat.max 0 r).
Proof.
  intros L E. unfold edges in E. rewrite L in E. cbn [Nat.eqb] in E. set (R := fold_right Nat.max 0 r) in *.
  destruct (grid_setup _ [Z.of_nat R]) as [g|] eqn:G; [|discriminate]. injection E as <-. cbn [fst snd]. split; [|reflexivity].
  rewrite map_length, seq_length, (grid_size_product _ _ _ G). cbn. rewrite Nat2Z.id. lia.
Qed.

Lemma concat_uniform (ms : list mesh) k r : (forall m, In m ms -> length (fst m) = r /\ snd m = range_to_edges r) ->
  snd (concat_meshes k ms) = concat (map (fun j => map (move_edge (k + j * r)) (range_to_edges r)) (seq 0 (length ms))).
Proof.
  revert k. induction ms as [|[v e] ms IH]; intros k H; [reflexivity|]. cbn [concat_meshes length seq map concat].
  destruct (H (v, e) (or_introl eq_refl)) as (Lv & Ee). cbn [fst snd] in Lv, Ee. subst e.
  specialize (IH (k + length v) (fun m I => H m (or_intror I))). destruct (concat_meshes (k + length v) ms) as [vs es]. cbn [snd] in *.
  rewrite IH, <- seq_shift, map_map. cbn [Nat.mul]. rewrite Nat.add_0_r. f_equal. f_equal. apply map_ext. intro j. f_equal. f_equal. lia.
Qed.

Lemma multipatch_edges eps patches n res all parts :
  (forall p, In p patches -> length (sp_axes (snd p)) = n) ->
  all_some (map (fun p => edges (fst p) eps (snd p) res all) patches) = Some parts ->
  exists V E (off : nat -> nat), edges_multipatch eps patches n res all = Some (V, E) /\
    length V = length (concat (map fst parts)) /\ (forall k, off k = length (concat (map fst (firstn k parts)))) /\
    (forall a b, In (a, b) E <-> exists k Vk Ek x y, nth_error parts k = Some (Vk, Ek) /\ In (x, y) Ek /\ a = off k + x /\ b = off k + y) /\
    (forall k Vk Ek x, nth_error parts k = Some (Vk, Ek) -> x < length Vk -> nth_error V (off k + x) = nth_error Vk x).
Proof.
  intros D P. exists (concat (map fst parts)), (snd (concat_meshes 0 parts)), (before parts). split; [|split; [reflexivity|split; [reflexivity|split]]].
  - unfold edges_multipatch. rewrite P. cbn [option_map]. destruct (n =? 1) eqn:Q.
    + apply Nat.eqb_eq in Q. subst n. f_equal. f_equal.
      assert (LP : length parts = length patches).
      { clear -P. revert parts P. induction patches as [|p l IH]; intros parts P; cbn in P; [injection P as <-; reflexivity|].
        destruct (edges _ _ _ _ _); [|discriminate]. destruct (all_some _) as [t|]; [|discriminate]. injection P as <-. cbn. f_equal. now apply IH. }
      rewrite (concat_uniform parts 0 (fold_right Nat.max 0 res)); [now rewrite LP|].
      clear LP. revert parts P. induction patches as [|p l IH]; intros parts P m I; cbn in P; [injection P as <-; destruct I|].
      destruct (edges _ _ _ _ _) as [m0|] eqn:E0; [|discriminate]. destruct (all_some _) as [t|] eqn:Et; [|discriminate]. injection P as <-.
      destruct I as [<-|I].
      * eapply curve_mesh; [|exact E0]. apply D. now left.
      * eapply IH; [intros q J; apply D; now right | reflexivity | exact I].
    + f_equal. rewrite <- (concat_vertices parts 0). now destruct (concat_meshes 0 parts).
  - intros a b. rewrite concat_edges. split.
    + intros (k & (Vk, Ek) & x & y & E & I & -> & ->). exists k, Vk, Ek, x, y. repeat split; auto.
    + intros (k & Vk & Ek & x & y & E & I & -> & ->). exists k, (Vk, Ek), x, y. repeat split; auto.
  - intros k Vk Ek x E H. now apply (before_nth parts k (Vk, Ek)).
Qed.
