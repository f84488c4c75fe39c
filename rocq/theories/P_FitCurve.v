(** Proofs about fitting: default splines and whole calls. *)
From Coq Require Import List Arith ZArith Lia Bool QArith Qcanon Qround.
From Verif Require Import Base BaseQc S_Grid S_Spline P_Spline S_Value P_Value M_Core S_Core P_Core S_Solve M_Solve P_Solve
  M_Create S_Create P_Create P_Shapes M_Fit S_Fit P_Fit P_FitLs P_FitSurf.
Import ListNotations.
Local Open Scope list_scope.
Local Open Scope nat_scope.

Lemma unit_axis p n kv : unit_knots p n kv -> p < n -> ax_n (KnotAxis p kv) = n /\ ax_wf (KnotAxis p kv) /\
  ax_lower (KnotAxis p kv) = 0%Qc /\ ax_upper (KnotAxis p kv) = 1%Qc.
Proof.
  intros (L & M & Z & I) Hp. assert (ax_n (KnotAxis p kv) = n) as E by (unfold ax_n; lia). split; auto.
  assert (kn kv p = 0%Qc) as E0. { rewrite (kn_nth kv p 0%Qc) by lia. apply Z. lia. }
  assert (kn kv n = 1%Qc) as E1. { rewrite (kn_nth kv n 0%Qc) by lia. apply I. lia. }
  unfold ax_wf, ax_lower, ax_upper. rewrite E. split; [|split; auto]. split; auto. split; auto. rewrite E0, E1. reflexivity.
Qed.
Lemma unit_inputs p n kv : unit_knots p n kv -> p < n ->
  knots_fit (Z.of_nat p) kv /\ Forall (fun k => (qc (-1) 1 <= k)%Qc) kv.
Proof.
  intros (L & M & Z & I) Hp. split; [split; [lia|split; [auto|lia]]|].
  apply Forall_forall. intros k Hk. apply In_nth with (d := 0%Qc) in Hk as (i & Hi & <-).
  apply Qcle_trans with 0%Qc; [unfold Qcle, Qle; vm_compute; discriminate|]. pose proof (M 0 i ltac:(lia) Hi) as Q. now rewrite (Z 0) in Q by lia.
Qed.

Lemma default_ok limit p n m dim u ncp : 1 <= limit -> 0 < dim -> p < n -> n <= m -> length u = m -> (m = n -> 0 < p) -> sorted01 u ->
  (ncp = Some (Z.of_nat n) \/ (ncp = None /\ n = m)) ->
  exists kv, default_spline limit m dim (Some (Z.of_nat p)) ncp None u =
      Some (Spl [KnotAxis p kv] (repeat (repeat 0%Qc dim) n) None) /\
    compute_knot_vector p n u m = Some kv /\ unit_knots p n kv /\
    (increasing u -> nth 0 u 0%Qc = 0%Qc -> last u 0%Qc = 1%Qc -> ax_clamped (KnotAxis p kv)).
Proof.
  intros Hl Hd Hp Hm Lu Hz Hu Hn. destruct (computed_knots p n u m Hp Hm Lu Hz Hu) as (kv & E & U & In_). exists kv.
  destruct (unit_inputs p n kv U Hp) as [K F]. pose proof U as (L & M & Z & I). split; [|split; [auto|split; [auto|]]].
  - unfold default_spline. assert (validated m (Some (Z.of_nat p)) ncp None = Some (Z.of_nat p, Z.of_nat n)) as ->.
    { unfold validated. destruct Hn as [->|[-> ->]].
      - destruct (Z.leb_spec (Z.of_nat n) (Z.of_nat p)); [lia|]. destruct (Z.ltb_spec (Z.of_nat m) (Z.of_nat n)); [lia|]. reflexivity.
      - destruct (Z.leb_spec (Z.of_nat m) (Z.of_nat p)); [lia|]. now rewrite Z.ltb_irrefl. }
    destruct (Z.ltb_spec (Z.of_nat p) 0); [lia|]. rewrite !Nat2Z.id, E.
    set (cps := repeat (repeat 0%Qc dim) n).
    assert (Forall (fun q => length q = dim) cps) as Fc.
    { apply Forall_forall. intros q Hq. unfold cps in Hq. apply repeat_spec in Hq as ->. apply repeat_length. }
    destruct (construct_accepts limit CBSpline (Inputs (Some [Z.of_nat p]) (Some [kv]) (Some cps) None) [Z.of_nat p] (Some [kv]) cps None
      ltac:(repeat (split; [easy|]); easy) (Spl [KnotAxis p kv] cps None)) as [_ B].
    destruct B as (st & E1 & E2).
    + refine (conj _ (conj _ _)).
      * split; [discriminate|]. split; [constructor; [auto|constructor]|]. split; [exists dim; auto|]. split; [|easy].
        cbn [wanted]. unfold cps. rewrite repeat_length. lia.
      * split; [exact Hl|]. constructor; [auto|constructor].
      * unfold has_properties. cbn. repeat split; auto. constructor; [now exists p|constructor].
    + now rewrite E1, E2.
  - intros Inc H0 H1. destruct (unit_axis p n kv U Hp) as (En & _ & _ & _). unfold ax_clamped. rewrite En.
    rewrite !(kn_nth kv _ 0%Qc) by lia. rewrite (Z 0), (Z p), (I n), (I (n + p)) by lia.
    destruct (Nat.eq_dec n (p + 1)) as [Ep|Ep].
    + rewrite (I (p + 1)) by lia. replace (n - 1) with p by lia. rewrite (Z p) by lia. easy.
    + assert (nth (p + 1) kv 0%Qc = inner_knot p n u m 1) as K1. { rewrite In_ by lia. f_equal. lia. }
      assert (nth (n - 1) kv 0%Qc = inner_knot p n u m (n - p - 1)) as K2. { rewrite In_ by lia. f_equal. lia. }
      rewrite K1, K2. split; auto. split; [apply first_inner_pos; auto; lia|]. split; [apply last_inner_small; auto; lia|easy].
Qed.

Lemma unit_sorted01 u : unit_parameters u -> sorted01 u.
Proof.
  intros (M & H0 & H1). split; auto. intros i Hi. split.
  - pose proof (M 0 i ltac:(lia) Hi) as Q. now rewrite H0 in Q.
  - rewrite last_nth in H1. pose proof (M i (length u - 1) ltac:(lia) ltac:(lia)) as Q. now rewrite H1 in Q.
Qed.

Lemma all_some_some {A} (l : list A) : all_some (map Some l) = Some l.
Proof. induction l as [|x l IH]; [reflexivity|]. cbn. now rewrite IH. Qed.

(** curve with given queries or computed parameters *)
Definition curve_queries (O : fit_oracles) (c : bool) (pts : mat) (queries : option (list Qc)) : option (list Qc) :=
  match queries with Some q => Some q | None => match axis_parameters O c (length pts) [pts] with Some us => all_some us | None => None end end.

Lemma curve_eq O limit scipy pts degree n_cp kv given queries c ends us : curve_queries O c pts queries = Some us ->
  curve O limit scipy pts degree n_cp kv given queries c ends =
  match given with
  | Some s => fit_spline O scipy s pts us ends
  | None => match default_spline limit (length pts) (dim_of pts) degree n_cp kv us with None => Refused | Some s => fit_spline O scipy s pts us ends end
  end.
Proof.
  unfold curve_queries, curve. destruct queries as [q|].
  - intros [= ->]. now rewrite all_some_some.
  - destruct (axis_parameters _ _ _ _) as [l|]; [|discriminate]. now intros ->.
Qed.

Lemma fitted_axes O scipy s pts us ends s' r : fit_spline O scipy s pts us ends = Fitted s' r -> sp_axes s' = sp_axes s /\ sp_weights s' = sp_weights s.
Proof. unfold fit_spline. destruct (negb _); [discriminate|]. destruct (fitted_points _ _ _ _ _ _); [|discriminate]. intros [= <- _]. easy. Qed.

Lemma spread_two pts : spread pts -> 2 <= length pts.
Proof. intros (i & H & _). lia. Qed.
Lemma dim_rows (pts : mat) dim : Forall (fun p => length p = dim) pts -> pts <> [] -> dim_of pts = dim.
Proof. intros F H. destruct pts; [easy|]. now inversion F. Qed.

Lemma default_curve O limit scipy pts dim p ncp n c ends : measuring O -> 1 <= limit -> 0 < dim ->
  Forall (fun q => length q = dim) pts -> spread pts -> p < n -> n <= length pts -> (n = length pts -> 0 < p) ->
  (ncp = Some (Z.of_nat n) \/ (ncp = None /\ n = length pts)) ->
  exists u kv, axis_parameters O c (length pts) [pts] = Some (map Some u) /\ length u = length pts /\ unit_parameters u /\
    (moving pts -> increasing u) /\
    compute_knot_vector p n u (length pts) = Some kv /\ unit_knots p n kv /\
    (moving pts -> ax_clamped (KnotAxis p kv)) /\
    curve O limit scipy pts (Some (Z.of_nat p)) ncp None None None c ends =
      fit_spline O scipy (Spl [KnotAxis p kv] (repeat (repeat 0%Qc dim) n) None) pts u ends.
Proof.
  intros Me Hl Hd F Sd Hp Hn Hz Hc.
  destruct (parameters_ok O Me c (length pts) dim [pts]) as (u & E & Lu & H2 & U & Inc); [discriminate| |].
  { intros l [<-|[]]. auto. }
  assert (moving pts -> increasing u) as Inc' by (intros Mv; apply Inc; intros l [<-|[]]; auto).
  destruct (default_ok limit p n (length pts) dim u ncp Hl Hd Hp Hn Lu (fun e => Hz (eq_sym e)) (unit_sorted01 u U) Hc)
    as (kv & E1 & E2 & K & Cl).
  exists u, kv. split; auto. split; auto. split; auto. split; auto. split; auto. split; auto. split.
  - intros Mv. destruct U as (_ & U0 & U1). apply Cl; auto.
  - rewrite curve_eq with (us := u).
    + rewrite (dim_rows pts dim F). * now rewrite E1. * intro Z. rewrite Z in H2. cbn in H2. lia.
    + unfold curve_queries. rewrite E. apply all_some_some.
Qed.

(** Curves through the first and last point. *)
Lemma default_ready p n kv dim u : unit_knots p n kv -> p < n -> ax_clamped (KnotAxis p kv) -> unit_parameters u ->
  end_ready (Spl [KnotAxis p kv] (repeat (repeat 0%Qc dim) n) None) u.
Proof.
  intros K Hp Cl (_ & U0 & U1). destruct (unit_axis p n kv K Hp) as (En & W & Lo & Up). exists (KnotAxis p kv).
  cbn [sp_axes sp_cps]. rewrite repeat_length. rewrite En.
  split; auto. split; auto. split; auto. split; auto. split; [exact I|]. rewrite Lo, Up. split; auto. rewrite <- U0. now destruct u.
Qed.

(** * Surfaces *)
Lemma at_ids_nth {A} (d : A) l ids i : i < length ids -> nth i (at_ids d l ids) d = nth (nth i ids 0) l d.
Proof. intros H. unfold at_ids. now rewrite at_map with (d' := 0). Qed.
Lemma at_ids_length {A} (d : A) l ids : length (at_ids d l ids) = length ids.
Proof. apply map_length. Qed.
Lemma separable_directions s : separable s -> exists su sv, row_of s = Some (su, sv) /\ directions s su sv.
Proof.
  intros (a & b & Ea & L & W). unfold row_of. rewrite Ea. eexists _, _. split; [reflexivity|].
  exists a, b. cbn [sp_axes sp_cps sp_weights]. rewrite !at_ids_length, map_length, !seq_length. repeat (split; [easy|]).
  destruct (sp_weights s) as [w|]; cbn [option_map]; auto. destruct W as (Hz & Lw & W). exists (nth 0 w 0%Qc). split; auto.
  intros i j Hi Hj. rewrite at_ids_nth by (rewrite seq_length; lia). rewrite at_ids_nth by (rewrite map_length, seq_length; lia).
  rewrite seq_nth by lia. rewrite at_map_seq by lia. cbn [Nat.add]. apply W; auto.
Qed.

Lemma surface_given O limit scipy pts size0 size1 degrees n_cps kvs s su sv us vs c ends : row_of s = Some (su, sv) ->
  surface O limit scipy pts size0 size1 degrees n_cps kvs (Some s) (Some (us, vs)) c ends =
  option_map (with_cps s) (surface_points O scipy su sv size0 size1 pts us vs ends).
Proof. intros E. unfold surface. destruct kvs; rewrite !all_some_some, E; reflexivity. Qed.

Lemma lines_u_ok n0 n1 pts dim : shaped (n0 * n1) dim pts -> forall l, In l (lines_u n0 n1 pts) -> length l = n0 /\ Forall (fun p => length p = dim) l.
Proof.
  intros [L F] l Hl. unfold lines_u in Hl. apply in_map_iff in Hl as (j & <- & Hj). apply in_seq in Hj.
  split; [now rewrite map_length, seq_length|]. apply Forall_map, Forall_forall. intros i Hi. apply in_seq in Hi.
  rewrite Forall_forall in F. apply F, nth_In. rewrite L. nia.
Qed.
Lemma lines_v_ok n0 n1 pts dim : shaped (n0 * n1) dim pts -> forall l, In l (lines_v n0 n1 pts) -> length l = n1 /\ Forall (fun p => length p = dim) l.
Proof.
  intros [L F] l Hl. unfold lines_v in Hl. apply in_map_iff in Hl as (j & <- & Hj). apply in_seq in Hj.
  split; [now rewrite map_length, seq_length|]. apply Forall_map, Forall_forall. intros i Hi. apply in_seq in Hi.
  rewrite Forall_forall in F. apply F, nth_In. rewrite L. nia.
Qed.

Definition default_line (p n : nat) (kv : list Qc) (dim : nat) : spline := Spl [KnotAxis p kv] (repeat (repeat 0%Qc dim) n) None.

Lemma default_surface O limit scipy pts dim size0 size1 p q cp0 cp1 n0 n1 c ends : measuring O -> 2 <= limit -> 0 < dim ->
  shaped (size0 * size1) dim pts -> 0 < size0 -> 0 < size1 ->
  (forall l, In l (lines_u size0 size1 pts) -> spread l) -> (forall l, In l (lines_v size0 size1 pts) -> spread l) ->
  p < n0 -> n0 <= size0 -> (n0 = size0 -> 0 < p) -> q < n1 -> n1 <= size1 -> (n1 = size1 -> 0 < q) ->
  (cp0 = Some (Z.of_nat n0) \/ (cp0 = None /\ n0 = size0)) -> (cp1 = Some (Z.of_nat n1) \/ (cp1 = None /\ n1 = size1)) ->
  exists u v kv0 kv1,
    (axis_parameters O c size0 (lines_u size0 size1 pts) = Some (map Some u) /\ length u = size0 /\ unit_parameters u) /\
    (axis_parameters O c size1 (lines_v size0 size1 pts) = Some (map Some v) /\ length v = size1 /\ unit_parameters v) /\
    (compute_knot_vector p n0 u size0 = Some kv0 /\ unit_knots p n0 kv0) /\
    (compute_knot_vector q n1 v size1 = Some kv1 /\ unit_knots q n1 kv1) /\
    ((forall l, In l (lines_u size0 size1 pts) -> moving l) -> increasing u /\ ax_clamped (KnotAxis p kv0)) /\
    ((forall l, In l (lines_v size0 size1 pts) -> moving l) -> increasing v /\ ax_clamped (KnotAxis q kv1)) /\
    directions (Spl [KnotAxis p kv0; KnotAxis q kv1] [] None) (default_line p n0 kv0 dim) (default_line q n1 kv1 dim) /\
    surface O limit scipy pts size0 size1 (Some (Z.of_nat p), Some (Z.of_nat q)) (cp0, cp1) None None None c ends =
      option_map (with_cps (Spl [KnotAxis p kv0; KnotAxis q kv1] [] None))
        (surface_points O scipy (default_line p n0 kv0 dim) (default_line q n1 kv1 dim) size0 size1 pts u v ends).
Proof.
  intros Me Hl Hd Sp Z0 Z1 Du Dv Hp Hn Hz Hp' Hn' Hz' Hc Hc'.
  destruct (parameters_ok O Me c size0 dim (lines_u size0 size1 pts)) as (u & E & Lu & H2 & U & Inc).
  { unfold lines_u. destruct size1; [lia|]. discriminate. }
  { intros l Hx. destruct (lines_u_ok _ _ _ _ Sp l Hx). auto. }
  destruct (parameters_ok O Me c size1 dim (lines_v size0 size1 pts)) as (v & E' & Lv & H2' & V & Inc').
  { unfold lines_v. destruct size0; [lia|]. discriminate. }
  { intros l Hx. destruct (lines_v_ok _ _ _ _ Sp l Hx). auto. }
  destruct (default_ok limit p n0 size0 dim u cp0 ltac:(lia) Hd Hp Hn Lu (fun e => Hz (eq_sym e)) (unit_sorted01 u U) Hc)
    as (kv0 & E1 & E2 & K & Cl).
  destruct (default_ok limit q n1 size1 dim v cp1 ltac:(lia) Hd Hp' Hn' Lv (fun e => Hz' (eq_sym e)) (unit_sorted01 v V) Hc')
    as (kv1 & E1' & E2' & K' & Cl').
  exists u, v, kv0, kv1. do 4 (split; [auto|]).
  split; [intros Mv; split; [now apply Inc|destruct U as (_ & U0 & U1); apply Cl; auto]|].
  split; [intros Mv; split; [now apply Inc'|destruct V as (_ & U0 & U1); apply Cl'; auto]|].
  destruct (unit_axis p n0 kv0 K Hp) as (En & _). destruct (unit_axis q n1 kv1 K' Hp') as (En' & _).
  split.
  { exists (KnotAxis p kv0), (KnotAxis q kv1). cbn [default_line sp_axes sp_cps sp_weights]. rewrite !repeat_length, En, En'. repeat (split; [easy|]). exact I. }
  unfold surface. rewrite E, E', !all_some_some. cbn [fst snd].
  assert (dim_of pts = dim) as Ed. { apply dim_rows; [apply Sp|]. destruct Sp as [L _]. intros ->. cbn in L. nia. }
  rewrite Ed, E1, E1'. cbn [core_degrees core_kvs sp_axes sp_cps map app].
  destruct (unit_inputs p n0 kv0 K Hp) as [Kf F]. destruct (unit_inputs q n1 kv1 K' Hp') as [Kf' F'].
  pose proof K as (L & _). pose proof K' as (L' & _). rewrite !repeat_length.
  set (cps := repeat (repeat 0%Qc dim) (n0 * n1)).
  assert (Forall (fun q => length q = dim) cps) as Fc.
  { apply Forall_forall. intros x Hx. unfold cps in Hx. apply repeat_spec in Hx as ->. apply repeat_length. }
  destruct (construct_accepts limit CBSpline (Inputs (Some [Z.of_nat p; Z.of_nat q]) (Some [kv0; kv1]) (Some cps) None)
    [Z.of_nat p; Z.of_nat q] (Some [kv0; kv1]) cps None
    ltac:(repeat (split; [easy|]); easy) (Spl [KnotAxis p kv0; KnotAxis q kv1] cps None)) as [_ B].
  destruct B as (st & G1 & G2).
  - refine (conj _ (conj _ _)).
    + split; [discriminate|]. split; [constructor; [auto|constructor; [auto|constructor]]|]. split; [exists dim; auto|]. split; [|easy].
      cbn [wanted]. unfold cps. rewrite repeat_length. nia.
    + split; [exact Hl|]. constructor; [auto|constructor; [auto|constructor]].
    + unfold has_properties. cbn. repeat split; auto. constructor; [now exists p|constructor; [now exists q|constructor]].
  - unfold core_degrees, core_kvs. cbn [sp_axes map app ax_degree ax_kv].
    rewrite G1, G2. unfold fit_surface. reflexivity.
Qed.

(** * Oracles *)
Definition exact_solution (a b : mat) : mat :=
  let sol d := match M_Solve.solve a (seq 0 (length a)) (map (fun r => nth d r 0%Qc) b) with Some x => x | None => [] end in
  let cols := map sol (seq 0 (dim_of b)) in
  map (fun k => map (fun x => nth k x 0%Qc) cols) (seq 0 (length a)).
Definition exact_lstsq (a b : mat) : mat :=
  let m := dim_of a in
  exact_solution (mat_mul m (transposed m a) a) (mat_mul (dim_of b) (transposed m a) b).
(** Sum of absolute values as norm, identity as root, exact solutions. *)
Definition exact_oracles : fit_oracles :=
  FitOracles (fun v => qsum (map qabs v)) (fun x => x) exact_solution exact_lstsq.

Lemma exact_solution_ok m n a b : 1 <= m -> shaped m m a -> shaped m n b -> ~ singular a ->
  shaped m n (exact_solution a b) /\
  forall r d, r < m -> d < n -> qsum (map (fun k => entry a r k * entry (exact_solution a b) k d)%Qc (seq 0 m)) = entry b r d.
Proof.
  intros Hm [La Fa] [Lb Fb] R. assert (dim_of b = n) as Ed. { apply dim_rows; auto. intros ->. cbn in Lb. lia. }
  unfold exact_solution. rewrite Ed, La. split.
  - split; [now rewrite map_length, seq_length|]. apply Forall_map, Forall_forall. intros k _. now rewrite !map_length, seq_length.
  - intros r d Hr Hd.
    destruct (solve_regular a (seq 0 (length a)) (map (fun r => nth d r 0%Qc) b) (Permutation.Permutation_refl _) R) as (x & E & Lx & Hx).
    rewrite La in *. specialize (Hx r Hr). unfold row_times in Hx. rewrite La in Hx. rewrite at_map with (d' := []) in Hx by lia.
    unfold entry at 3. rewrite <- Hx. apply qsum_ext. intros k Hk. apply in_seq in Hk. f_equal. unfold entry.
    rewrite at_map_seq by lia. cbn [Nat.add]. rewrite at_map with (d' := []) by (rewrite map_length, seq_length; lia).
    rewrite at_map_seq by lia. cbn [Nat.add]. now rewrite E.
Qed.
Lemma exact_solving : solving exact_oracles.
Proof.
  split; [exact exact_solution_ok|]. intros l m n a b Hm Sa Sb Ind. cbn [exact_oracles f_lstsq].
  assert (1 <= l) as Hl.
  { destruct l as [|l]; [|lia]. exfalso. assert (1 = 0)%Qc as K; [|discriminate K]. apply (Ind (fun _ => 1%Qc) ltac:(lia) 0). lia. }
  assert (dim_of a = m) as Ea. { destruct Sa as [La Fa]. apply dim_rows; auto. intros ->. cbn in La. lia. }
  assert (dim_of b = n) as Eb. { destruct Sb as [Lb Fb]. apply dim_rows; auto. intros ->. cbn in Lb. lia. }
  unfold exact_lstsq. rewrite Ea, Eb.
  set (g := mat_mul m (transposed m a) a). set (r := mat_mul n (transposed m a) b).
  assert (shaped m m g) as Sg. { pose proof (mat_mul_shaped m (transposed m a) a) as H. now rewrite transposed_length in H. }
  assert (shaped m n r) as Sr. { pose proof (mat_mul_shaped n (transposed m a) b) as H. now rewrite transposed_length in H. }
  destruct (exact_solution_ok m n g r Hm Sg Sr (gram_regular l m a Sa Ind)) as [Sx E]. split; auto.
  intros j d Hj Hd. specialize (E j d Hj Hd). set (X := exact_solution g r) in *. clearbody X.
  unfold r in E. rewrite mat_mul_entry in E by (rewrite ?transposed_length; lia). rewrite (proj1 Sb) in E.
  rewrite (qsum_ext _ (fun i => qsum (map (fun k => entry a k j * (entry a k i * entry X i d))%Qc (seq 0 l)))) in E.
  - rewrite qsum_swap in E.
    rewrite (qsum_ext _ (fun k => qsum (map (fun i => entry a k j * (entry a k i * entry X i d))%Qc (seq 0 m)) - entry a k j * entry b k d)%Qc).
    + rewrite qsum_map_sub. rewrite E. rewrite (qsum_ext (fun i => entry (transposed m a) j i * entry b i d)%Qc (fun k => entry a k j * entry b k d)%Qc); [ring|].
      intros k Hk. apply in_seq in Hk. rewrite transposed_entry; auto. rewrite (proj1 Sa). lia.
    + intros k _. rewrite qsum_map_mul_l. ring.
  - intros i Hi. apply in_seq in Hi. unfold g. rewrite mat_mul_entry by (rewrite ?transposed_length; lia). rewrite (proj1 Sa).
    rewrite <- qsum_map_mul_r. apply qsum_ext. intros k Hk. apply in_seq in Hk. rewrite transposed_entry by (rewrite ?(proj1 Sa); lia). ring.
Qed.
Lemma exact_measuring : measuring exact_oracles.
Proof.
  split; cbn [exact_oracles f_norm f_sqrt]; [|auto]. intros v. split.
  - apply qsum_nonneg. intros; apply qabs_nonneg.
  - induction v as [|x v IH]; intros H; [constructor|]. cbn in H. change (fold_right Qcplus 0%Qc) with qsum in H.
    pose proof (qabs_nonneg x) as P. pose proof (qsum_nonneg qabs v ltac:(intros; apply qabs_nonneg)) as Q.
    assert (qabs x = 0%Qc /\ qsum (map qabs v) = 0%Qc) as [H1 H2].
    { split; apply Qcle_antisym; auto; clear IH; qlra. }
    constructor; auto. revert H1. unfold qabs. destruct (Qclt_le_dec x 0) as [L|L]; auto. intros H1.
    replace x with (- - x)%Qc by ring. rewrite H1. reflexivity.
Qed.

(** A left inverse of the matrix of basis functions. *)
Definition inverse_of (L A : mat) (n : nat) : bool :=
  forallb (fun i => forallb (fun j => qeqb (qsum (map (fun k => (entry L i k * entry A k j)%Qc) (seq 0 (length A)))) (if i =? j then 1 else 0)%Qc)
    (seq 0 n)) (seq 0 n).
Lemma left_inverse s us L : curve_shape s -> inverse_of L (coefficient_matrix s us) (length (sp_cps s)) = true -> determined s us.
Proof.
  intros Sh H c Lc Hc. unfold inverse_of in H. rewrite forallb_forall in H.
  apply Forall_forall. intros x Hx. apply In_nth with (d := 0%Qc) in Hx as (i & Hi & <-).
  specialize (H i ltac:(apply in_seq; lia)). rewrite forallb_forall in H.
  set (n := length (sp_cps s)) in *. set (A := coefficient_matrix s us) in *.
  assert (length A = length us) as LA by (unfold A, coefficient_matrix; now rewrite map_length).
  transitivity (qsum (map (fun j => (if i =? j then 1 else 0) * nth j c 0)%Qc (seq 0 n))).
  { rewrite (qsum_ext _ (fun j => (if j =? i then 1 else 0) * nth j c 0)%Qc) by (intros; now rewrite Nat.eqb_sym). rewrite delta_sum; auto. lia. }
  rewrite (qsum_ext _ (fun j => qsum (map (fun k => entry L i k * (entry A k j * nth j c 0))%Qc (seq 0 (length A))))).
  - rewrite qsum_swap. apply qsum_zero. intros k Hk. apply in_seq in Hk. rewrite qsum_map_mul_l.
    assert (qsum (map (fun j => entry A k j * nth j c 0)%Qc (seq 0 n)) = 0%Qc) as ->; [|ring].
    specialize (Hc (nth k us 0%Qc) ltac:(apply nth_In; lia)). destruct Sh as (a & Ea & La).
    rewrite (curve_value s a) in Hc by auto. etransitivity; [|exact Hc]. unfold n. rewrite La. apply qsum_ext. intros j Hj. apply in_seq in Hj.
    unfold A. rewrite matrix_entry by lia. f_equal. rewrite at_map with (d' := 0%Qc) by lia. reflexivity.
  - intros j Hj. specialize (H j Hj). destruct (qeqb_spec (qsum (map (fun k => (entry L i k * entry A k j)%Qc) (seq 0 (length A)))) (if i =? j then 1 else 0)%Qc) as [E|E]; [|discriminate].
    rewrite <- E, <- qsum_map_mul_r. apply qsum_ext. intros; ring.
Qed.
