(** Proofs about clipping and the proximity search. *)
From Coq Require Import List Arith ZArith QArith Qcanon Lia Bool.
From Verif Require Import Base BaseQc M_Solve S_Solve M_Prox S_Prox.
Import ListNotations.
Local Open Scope nat_scope.

(** ** Clipping *)
Lemma dlt_below x y : dlt x y = true <-> below x y.
Proof.
  unfold below. destruct x as [a| | |], y as [b| | |]; cbn; try (split; intros; try discriminate; tauto).
  destruct (qltb_spec a b); split; intros; auto; try discriminate.
  - split; [qlra|]. intros ?; qlra.
  - exfalso. destruct H. qlra.
Qed.

Lemma dle_refl x : x <> NaN -> dle x x.
Proof. destruct x; cbn; auto using Qcle_refl. Qed.

Lemma not_dlt_dle x y : x <> NaN -> y <> NaN -> dlt x y = false -> dle y x.
Proof.
  destruct x as [a| | |], y as [b| | |]; cbn; auto; try discriminate; try congruence.
  destruct (qltb_spec a b); try discriminate. intros. qlra.
Qed.

Lemma clip1_spec lb ub x : x <> NaN -> dle lb ub ->
  let '(y, flag) := clip1 lb ub x in
  dle lb y /\ dle y ub /\
  (dle lb x -> dle x ub -> y = x /\ flag = 0%Z) /\
  (flag = 1%Z <-> below ub x) /\ (flag = (-1)%Z <-> below x lb) /\
  (flag = 0%Z <-> dle lb x /\ dle x ub) /\
  (flag = 1%Z -> y = ub) /\ (flag = (-1)%Z -> y = lb).
Proof.
  intros NX LU. assert (NL : lb <> NaN) by (intros ->; exact LU).
  assert (NU : ub <> NaN) by (intros ->; destruct lb; exact LU).
  unfold clip1. destruct (dlt ub x) eqn:U.
  - assert (BU : below ub x) by now apply dlt_below. pose proof BU as (_ & NB).
    assert (NX' : ~ below x lb).
    { intros (A & B). apply B. destruct lb, ub, x; cbn in *; auto; try tauto; qlra. }
    refine (conj LU (conj (dle_refl ub NU) (conj _ (conj _ (conj _ (conj _ (conj _ _))))))); try tauto;
      try (intros; discriminate); split; intros; try discriminate; tauto.
  - pose proof (not_dlt_dle _ _ NU NX U) as XU. assert (NB : ~ below ub x) by (intros (_ & B); contradiction).
    destruct (dlt x lb) eqn:L.
    + assert (BL : below x lb) by now apply dlt_below. pose proof BL as (_ & B).
      refine (conj (dle_refl lb NL) (conj LU (conj _ (conj _ (conj _ (conj _ (conj _ _))))))); try tauto;
        try (intros; discriminate); split; intros; try discriminate; tauto.
    + pose proof (not_dlt_dle _ _ NX NL L) as LX. assert (NL' : ~ below x lb) by (intros (_ & B); contradiction).
      refine (conj LX (conj XU (conj _ (conj _ (conj _ (conj _ (conj _ _))))))); try tauto;
        try (intros; discriminate); split; intros; try discriminate; tauto.
Qed.

Lemma clip_length lbs : forall ubs xs, length lbs = length xs -> length ubs = length xs ->
  length (clip lbs ubs xs) = length xs.
Proof.
  induction lbs as [|lb lbs IH]; intros [|ub ubs] [|x xs]; cbn; try discriminate; auto.
Qed.

Lemma clip_nth lbs : forall ubs xs i, length lbs = length xs -> length ubs = length xs ->
  nth_error (clip lbs ubs xs) i =
  match nth_error xs i with
  | None => None
  | Some x => Some (clip1 (nth i lbs NaN) (nth i ubs NaN) x)
  end.
Proof.
  induction lbs as [|lb lbs IH]; intros [|ub ubs] [|x xs] i; cbn [length clip]; try discriminate.
  - destruct i; reflexivity.
  - destruct i; cbn [nth_error nth]; auto.
Qed.

Lemma clip_all lbs ubs xs : length lbs = length xs -> length ubs = length xs ->
  (forall i, i < length xs -> dle (nth i lbs NaN) (nth i ubs NaN)) -> Forall (fun x => x <> NaN) xs ->
  length (clip lbs ubs xs) = length xs /\
  forall i x, nth_error xs i = Some x ->
    exists y flag, nth_error (clip lbs ubs xs) i = Some (y, flag) /\
      let lb := nth i lbs NaN in let ub := nth i ubs NaN in
      dle lb y /\ dle y ub /\
      (dle lb x -> dle x ub -> y = x) /\
      (flag = 1%Z <-> below ub x) /\ (flag = (-1)%Z <-> below x lb) /\
      (flag = 0%Z <-> dle lb x /\ dle x ub).
Proof.
  intros L1 L2 O N. split; [now apply clip_length|]. intros i x E.
  assert (Hi : i < length xs) by (apply nth_error_Some; rewrite E; discriminate).
  rewrite clip_nth, E by auto. rewrite Forall_forall in N.
  pose proof (clip1_spec (nth i lbs NaN) (nth i ubs NaN) x (N x (nth_error_In _ _ E)) (O i Hi)) as C.
  destruct (clip1 _ _ x) as [y flag]. exists y, flag. split; auto. cbv zeta.
  destruct C as (A & B & C & D & E' & F & _). refine (conj A (conj B (conj _ (conj D (conj E' F))))). intros; now apply C.
Qed.

Lemma clip_nan lb ub : clip1 lb ub NaN = (NaN, 0%Z).
Proof. unfold clip1. destruct lb, ub; reflexivity. Qed.

Lemma non_zeros_zero xs : non_zeros xs = 0.
Proof. unfold non_zeros. induction xs; auto. Qed.

(** ** Coherence of the search data *)
Section Coherent.
Variables (w : world) (query lbs ubs : vec) (tol : dbl).

Definition coherent (s : search) : Prop :=
  s_phys s = w_value w (s_guess s) /\ s_diff s = subtract (s_phys s) query /\
  s_dist s = w_sqrt w (norm2 (s_diff s)) /\ s_grad s = w_first w (s_guess s).

Lemma coherent_prepare s : coherent (compute_status w query false (prepare w query s)).
Proof. repeat split. Qed.
Lemma coherent_recompute s : coherent (compute_status w query true s).
Proof. repeat split. Qed.
Lemma coherent_goal s g : coherent s -> coherent (set_goal s g).
Proof. intros H; exact H. Qed.

Lemma coherent_newton_loop n : forall s, coherent s -> coherent (newton_loop w query lbs ubs tol n s).
Proof.
  induction n as [|n IH]; intros s H; cbn [newton_loop]; auto.
  destruct (converged tol s); auto. apply IH, coherent_prepare.
Qed.
Lemma coherent_newton n s : coherent (newton w query lbs ubs tol n s).
Proof. apply coherent_newton_loop, coherent_goal, coherent_prepare. Qed.

Lemma coherent_slsqp calls s s' mode : slsqp w query lbs ubs tol calls s = Some (s', mode) -> coherent s'.
Proof.
  unfold slsqp. destruct (slsqp_loop _ _ _ _ _ _) as [[s1 m]|]; intros [= <- <-]. apply coherent_recompute.
Qed.

Lemma coherent_lm_loop tries : forall n lambda J s s', coherent s ->
  lm_loop w query lbs ubs tol tries n lambda J s = Some s' -> coherent s'.
Proof.
  induction tries as [|[delta rho] tries IH]; intros n lambda J s s' H E; destruct n; cbn [lm_loop] in E.
  - now injection E as <-.
  - destruct (converged tol s); [now injection E as <-|discriminate].
  - now injection E as <-.
  - destruct (converged tol s); [now injection E as <-|].
    destruct (_ && _).
    + destruct (qltb _ _); [injection E as <-; apply coherent_recompute|].
      eapply IH; [|exact E]. apply coherent_prepare.
    + eapply IH; [|exact E]. apply coherent_prepare.
Qed.
Lemma coherent_lm tries n s s' : lm w query lbs ubs tol tries n s = Some s' -> coherent s'.
Proof. unfold lm. apply coherent_lm_loop, coherent_goal, coherent_prepare. Qed.

Lemma coherent_output s : coherent s -> outputs_at w query (s_guess s) (output s).
Proof.
  intros (A & B & C & D). unfold outputs_at, output; cbn. rewrite B, A in *. repeat split; auto.
Qed.

Lemma query_outputs init n calls tries r :
  verbose_query w query lbs ubs tol init n calls tries = Some r ->
  exists g, outputs_at w query g r.
Proof.
  unfold verbose_query. cbv zeta. set (s0 := cost0 _ _ _).
  pose proof (coherent_newton n s0) as C1. set (s1 := newton _ _ _ _ _ n s0) in *.
  destruct (converged tol s1).
  { intros [= <-]. eexists. now apply coherent_output. }
  destruct (keep_best (s_J s0) init s1) as [[[bJ b] s2] i2].
  destruct (slsqp _ _ _ _ _ calls s2) as [[s3 mode]|] eqn:E3; [|discriminate].
  pose proof (coherent_slsqp _ _ _ _ E3) as C3.
  destruct (converged tol s3 || _).
  { intros [= <-]. eexists. now apply coherent_output. }
  destruct (keep_best bJ b s3) as [[[bJ' b'] s4] i4].
  destruct (lm _ _ _ _ _ tries _ s4) as [s5|] eqn:E5; [|discriminate].
  pose proof (coherent_lm _ _ _ _ E5) as C5. unfold keep_best.
  destruct (dlt (s_J s5) bJ').
  - intros [= <-]. eexists. apply coherent_output, coherent_recompute.
  - intros [= <-]. exists (s_guess s5). exact (coherent_output s5 C5).
Qed.

(** On the first two exits the outputs belong to the returned coordinate. *)
Lemma query_early init n calls tries r :
  let s0 := cost0 w query (mkSearch init [] [] [] [] (Num (- 1%Qc)%Qc) (Num (- 1%Qc)%Qc) (Num (- 1%Qc)%Qc) (Num 0)) in
  let s1 := newton w query lbs ubs tol n s0 in
  let s2 := snd (fst (keep_best (s_J s0) init s1)) in
  (converged tol s1 = true \/
   exists s3 mode, slsqp w query lbs ubs tol calls s2 = Some (s3, mode) /\ (converged tol s3 = true \/ mode = 0%Z)) ->
  verbose_query w query lbs ubs tol init n calls tries = Some r -> consistent w query r.
Proof.
  cbv zeta. unfold verbose_query. cbv zeta. set (s0 := cost0 _ _ _).
  pose proof (coherent_newton n s0) as C1. set (s1 := newton _ _ _ _ _ n s0) in *.
  intros H. destruct (converged tol s1).
  { intros [= <-]. now apply coherent_output. }
  destruct H as [H|H]; [discriminate|].
  destruct (keep_best (s_J s0) init s1) as [[[bJ b] s2] i2]. cbn [fst snd] in H.
  destruct H as (s3 & mode & E & H). rewrite E.
  pose proof (coherent_slsqp _ _ _ _ E) as C3.
  replace (converged tol s3 || (mode =? 0)%Z) with true.
  - intros [= <-]. now apply coherent_output.
  - destruct H as [->| ->]; auto. now rewrite Bool.orb_true_r.
Qed.
End Coherent.

(** ** Staying inside the bounds *)
Section Inside.
Variables (w : world) (query lbs ubs : vec) (tol : dbl) (n : nat).
Hypothesis Hw : sized n w.
Hypothesis Hl : length lbs = n.
Hypothesis Hu : length ubs = n.
Hypothesis Hb : forall i, i < n -> dle (nth i lbs NaN) (nth i ubs NaN).

Definition inb (g : vec) : Prop :=
  length g = n /\ forall i, i < n ->
    nth i g NaN = NaN \/ (dle (nth i lbs NaN) (nth i g NaN) /\ dle (nth i g NaN) (nth i ubs NaN)).

Lemma inb_clip xs : length xs = n -> inb (map fst (clip lbs ubs xs)).
Proof.
  intros L. split; [rewrite map_length, clip_length; lia|]. intros i Hi.
  assert (Hx : i < length xs) by lia. destruct (nth_error xs i) as [x|] eqn:E;
    [|apply nth_error_None in E; lia].
  assert (EN : nth i (map fst (clip lbs ubs xs)) NaN = fst (clip1 (nth i lbs NaN) (nth i ubs NaN) x)).
  { apply nth_error_nth. rewrite nth_error_map, clip_nth, E by lia. reflexivity. }
  rewrite EN. assert (D : x = NaN \/ x <> NaN) by (destruct x; auto; right; discriminate).
  destruct D as [->|D]; [left; now rewrite clip_nan|right].
  pose proof (clip1_spec (nth i lbs NaN) (nth i ubs NaN) x D (Hb i Hi)) as C.
  destruct (clip1 _ _ x). cbn. tauto.
Qed.

Lemma add_arrays_length a b : length a = length b -> length (add_arrays a b) = length a.
Proof. intros E. unfold add_arrays. rewrite map_length, combine_length. lia. Qed.

Lemma inb_step s delta : inb (s_guess s) -> length delta = n -> inb (s_guess (step_guess lbs ubs s delta)).
Proof.
  intros (L & _) D. cbn. apply inb_clip. rewrite add_arrays_length; lia.
Qed.

Definition fine (s : search) : Prop := inb (s_guess s) /\ length (s_djdu s) = n.

Lemma fine_prepare s : inb (s_guess s) -> fine (compute_status w query false (prepare w query s)).
Proof.
  intros H. split; [exact H|]. cbn. rewrite !map_length. apply Hw.
Qed.

Lemma fine_newton k : forall s, fine s -> fine (newton_loop w query lbs ubs tol k s).
Proof.
  induction k as [|k IH]; intros s H; cbn [newton_loop]; auto.
  destruct (converged tol s); auto. apply IH, fine_prepare, inb_step; [apply H|].
  destruct Hw as (_ & ->). apply H.
Qed.

Lemma inb_prepare_slsqp mode s : length (s_guess s) = n -> inb (s_guess (prepare_slsqp w query lbs ubs mode s)).
Proof.
  intros H. unfold prepare_slsqp. cbv zeta.
  assert (G : inb (s_guess (clip_guess lbs ubs s))) by (cbn; now apply inb_clip).
  destruct (mode =? 0)%Z; [exact G|]. destruct (mode =? 1)%Z; [exact G|]. destruct (mode =? -1)%Z; exact G.
Qed.

Lemma inb_slsqp_loop calls : Forall (fun c => length (fst c) = n) calls -> forall s s' m,
  slsqp_loop w query lbs ubs calls s = Some (s', m) -> inb (s_guess s').
Proof.
  induction 1 as [|[x mode] calls Hx Hc IH]; intros s s' m E; cbn [slsqp_loop] in E; [discriminate|].
  pose proof (inb_prepare_slsqp mode (set_guess s x) Hx) as G.
  destruct (Z.abs mode =? 1)%Z; [now apply IH in E|]. now injection E as <- <-.
Qed.

Lemma inb_slsqp calls s s' m : Forall (fun c => length (fst c) = n) calls ->
  slsqp w query lbs ubs tol calls s = Some (s', m) -> inb (s_guess s').
Proof.
  intros Hc. unfold slsqp. destruct (slsqp_loop _ _ _ _ calls _) as [[s1 m1]|] eqn:E; intros [= <- <-].
  apply inb_slsqp_loop in E; auto.
Qed.

Lemma inb_lm_loop tries : Forall (fun c => length (fst c) = n) tries -> forall k lambda J s s',
  inb (s_guess s) -> lm_loop w query lbs ubs tol tries k lambda J s = Some s' -> inb (s_guess s').
Proof.
  induction 1 as [|[delta rho] tries Hx Hc IH]; intros k lambda J s s' I E; destruct k; cbn [lm_loop] in E.
  - now injection E as <-.
  - destruct (converged tol s); [now injection E as <-|discriminate].
  - now injection E as <-.
  - destruct (converged tol s); [now injection E as <-|].
    destruct (_ && _).
    + destruct (qltb _ _).
      * injection E as <-. cbn. exact (inb_step s delta I Hx).
      * apply IH in E; auto.
    + apply IH in E; auto. exact (inb_step s delta I Hx).
Qed.

Lemma inb_keep bJ b s bJ' b' s' i : inb b -> inb (s_guess s) ->
  keep_best bJ b s = (bJ', b', s', i) -> inb b' /\ inb (s_guess s').
Proof. unfold keep_best. destruct (dlt _ _); intros ? ? [= <- <- <- <-]; auto. Qed.

Lemma query_inside init k calls tries r : inb init ->
  Forall (fun c => length (fst c) = n) calls -> Forall (fun c => length (fst c) = n) tries ->
  verbose_query w query lbs ubs tol init k calls tries = Some r -> inb (o_para r).
Proof.
  intros I Hc Ht. unfold verbose_query. cbv zeta. set (s0 := cost0 _ _ _).
  assert (F1 : fine (newton w query lbs ubs tol k s0)) by (apply fine_newton; exact (fine_prepare s0 I)).
  set (s1 := newton _ _ _ _ _ k s0) in *.
  destruct (converged tol s1). { intros [= <-]. apply F1. }
  destruct (keep_best (s_J s0) init s1) as [[[bJ b] s2] i2] eqn:K2.
  apply inb_keep in K2 as (Ib & I2); [|exact I|apply F1].
  destruct (slsqp _ _ _ _ _ calls s2) as [[s3 mode]|] eqn:E3; [|discriminate].
  apply inb_slsqp in E3; auto.
  destruct (converged tol s3 || _). { now intros [= <-]. }
  destruct (keep_best bJ b s3) as [[[bJ' b'] s4] i4] eqn:K4.
  apply inb_keep in K4 as (Ib' & I4); auto.
  destruct (lm _ _ _ _ _ tries _ s4) as [s5|] eqn:E5; [|discriminate].
  apply inb_lm_loop in E5; auto.
  destruct (keep_best bJ' b' s5) as [[[bJ'' b''] s6] i6] eqn:K6.
  apply inb_keep in K6 as (_ & I6); auto.
  intros [= <-]. destruct i6; exact I6.
Qed.
End Inside.

(** Bounds made of numbers. *)
Lemma nth_num l i : i < length l -> nth i (map Num l) NaN = Num (nth i l 0%Qc).
Proof.
  intros H. rewrite (nth_indep _ NaN (Num 0)) by now rewrite map_length. apply (map_nth Num).
Qed.
Lemma map2_num (f : dbl -> dbl -> dbl) g a : forall b, (forall x y, f (Num x) (Num y) = Num (g x y)) ->
  map (fun p => f (fst p) (snd p)) (combine (map Num a) (map Num b)) =
  map Num (map (fun p => g (fst p) (snd p)) (combine a b)).
Proof.
  induction a as [|x a IH]; intros [|y b] E; cbn; auto. rewrite E, IH by auto. reflexivity.
Qed.
Lemma dmax_num x y : dmax (Num x) (Num y) = Num (if qltb x y then y else x).
Proof. unfold dmax. cbn. destruct (qltb x y); auto. Qed.
Lemma dmin_num x y : dmin (Num x) (Num y) = Num (if qltb y x then y else x).
Proof. unfold dmin. cbn. destruct (qltb y x); auto. Qed.
Lemma nth_map2 (g : Qc -> Qc -> Qc) a : forall b i, length a = length b -> i < length a ->
  nth i (map (fun p => g (fst p) (snd p)) (combine a b)) 0%Qc = g (nth i a 0%Qc) (nth i b 0%Qc).
Proof.
  induction a as [|x a IH]; intros [|y b] i L H; cbn in L; try discriminate; [cbn in H; lia|].
  destruct i; cbn; auto. apply IH; auto. cbn in H. lia.
Qed.

Lemma bounds_num tight lo hi steps init n :
  length lo = n -> length hi = n -> length steps = n -> length init = n ->
  (forall i, i < n -> (nth i lo 0 <= nth i init 0)%Qc /\ (nth i init 0 <= nth i hi 0)%Qc /\ (0 <= nth i steps 0)%Qc) ->
  exists lbs ubs, search_bounds tight (map Num lo) (map Num hi) (map Num steps) (map Num init) = (map Num lbs, map Num ubs) /\
    length lbs = n /\ length ubs = n /\
    forall i, i < n -> (nth i lo 0 <= nth i lbs 0)%Qc /\ (nth i lbs 0 <= nth i init 0)%Qc /\
      (nth i init 0 <= nth i ubs 0)%Qc /\ (nth i ubs 0 <= nth i hi 0)%Qc.
Proof.
  intros L1 L2 L3 L4 H. unfold search_bounds. destruct tight.
  - unfold subtract. rewrite (map2_num dsub (fun x y => x - y)%Qc) by reflexivity.
    rewrite (map2_num dadd (fun x y => x + y)%Qc) by reflexivity.
    rewrite (map2_num dmax (fun x y => if qltb x y then y else x)) by apply dmax_num.
    rewrite (map2_num dmin (fun x y => if qltb y x then y else x)) by apply dmin_num.
    eexists; eexists; split; [reflexivity|].
    split; [rewrite map_length, combine_length, map_length, combine_length; lia|].
    split; [rewrite map_length, combine_length, map_length, combine_length; lia|].
    intros i Hi.
    rewrite !(nth_map2 (fun x y => if qltb x y then y else x)), !(nth_map2 (fun x y => if qltb y x then y else x))
      by (rewrite ?map_length, ?combine_length; lia).
    rewrite !(nth_map2 (fun x y => x - y)%Qc), !(nth_map2 (fun x y => x + y)%Qc) by lia.
    destruct (H i Hi) as (A & B & C).
    destruct (qltb_spec (nth i lo 0%Qc) (nth i init 0 - nth i steps 0)%Qc),
             (qltb_spec (nth i init 0 + nth i steps 0)%Qc (nth i hi 0%Qc)); repeat split; qlra.
  - exists lo, hi. repeat split; auto; try apply Qcle_refl; now apply H.
Qed.

Lemma query_inside_num w query lo hi steps tight tol max_iterations init calls tries r n :
  sized n w -> length lo = n -> length hi = n -> length steps = n -> length init = n ->
  (forall i, i < n -> (nth i lo 0 <= nth i init 0)%Qc /\ (nth i init 0 <= nth i hi 0)%Qc /\ (0 <= nth i steps 0)%Qc) ->
  Forall (fun c => length (fst c) = n) calls -> Forall (fun c => length (fst c) = n) tries ->
  query_proximity w query (map Num lo) (map Num hi) (map Num steps) tight tol max_iterations
    (map Num init) calls tries = Some r ->
  length (o_para r) = n /\
  forall i, i < n -> nth i (o_para r) NaN = NaN \/
    exists x, nth i (o_para r) NaN = Num x /\ (nth i lo 0 <= x)%Qc /\ (x <= nth i hi 0)%Qc.
Proof.
  intros W L1 L2 L3 L4 H Hc Ht. unfold query_proximity.
  destruct (bounds_num tight lo hi steps init n L1 L2 L3 L4 H) as (lbs & ubs & -> & L5 & L6 & B).
  intros E. apply (query_inside w query (map Num lbs) (map Num ubs) tol n W) in E; auto.
  - destruct E as (L & I). split; auto. intros i Hi. destruct (I i Hi) as [|(A & C)]; auto. right.
    rewrite nth_num in A, C by lia. destruct (nth i (o_para r) NaN) as [x| | |]; cbn in A, C; try contradiction.
    exists x. destruct (B i Hi) as (? & ? & ? & ?). repeat split; auto; qlra.
  - now rewrite map_length.
  - now rewrite map_length.
  - intros i Hi. rewrite !nth_num by lia. cbn. destruct (B i Hi) as (? & ? & ? & ?). qlra.
  - split; [now rewrite map_length|]. intros i Hi. right. rewrite !nth_num by lia. cbn.
    destruct (B i Hi) as (? & ? & ? & ?). auto.
Qed.

Lemma clip_nan_out :
  exists lb ub x, dle lb ub /\ clip1 lb ub x = (NaN, 0%Z) /\ ~ (dle lb NaN /\ dle NaN ub).
Proof.
  exists (Num 0), (Num 1), NaN. split; [cbn; qlra|]. split; [reflexivity|]. intros (H & _). exact H.
Qed.

Lemma update_inside lbs ubs guess delta n :
  length lbs = n -> length ubs = n -> length guess = n -> length delta = n ->
  (forall i, i < n -> dle (nth i lbs NaN) (nth i ubs NaN)) ->
  forall i, i < n ->
    let y := nth i (map fst (update_and_clip lbs ubs guess delta)) NaN in
    y = NaN \/ (dle (nth i lbs NaN) y /\ dle y (nth i ubs NaN)).
Proof.
  intros L1 L2 L3 L4 B i Hi. cbv zeta. unfold update_and_clip.
  apply (inb_clip lbs ubs n L1 L2 B); auto. unfold add_arrays; rewrite map_length, combine_length; lia.
Qed.

Lemma non_zeros_wrong :
  (forall flags, non_zeros flags = 0) /\
  exists flags, length (filter (fun f => negb (f =? 0)%Z) flags) <> non_zeros flags.
Proof. split; [exact non_zeros_zero|]. exists [1%Z]. rewrite non_zeros_zero. discriminate. Qed.
