(** A removal of knots and a reduction of degrees that meet the contracts: curves, exact. *)
From Coq Require Import List Arith Bool ZArith QArith Qcanon Lia Permutation Sorted.
From Verif Require Import Base BaseQc S_Spline S_Value P_Spline P_Value P_KnotInsert W_KnotInsert M_Core S_Core P_Core M_Files S_Files S_Create S_Elevate P_Create S_SubSpline P_SubSpline P_SubCut P_SubWitness P_SubExample P_IntWitness S_Bases P_BasesLift M_Reduce S_Reduce P_Reduce.
Import ListNotations.
Local Open Scope list_scope.
Local Open Scope nat_scope.

Definition paxis_dec (a b : paxis) : {a = b} + {a <> b}.
Proof. repeat (decide equality; try apply Nat.eq_dec; try apply Qc_eq_dec). Defined.
Definition spline_dec (s t : spline) : {s = t} + {s <> t}.
Proof.
  decide equality.
  - destruct sp_weights as [v|], sp_weights0 as [w|]; try (now left); try (now right). destruct (list_eq_dec Qc_eq_dec v w); [left|right]; congruence.
  - apply (list_eq_dec (list_eq_dec Qc_eq_dec)).
  - apply (list_eq_dec paxis_dec).
Defined.
Definition isb {P} (b : {P} + {~ P}) : bool := if b then true else false.
Lemma isb_true {P} (b : {P} + {~ P}) : isb b = true -> P.
Proof. now destruct b. Qed.

(** A curve that can be stored. *)
Definition fit (p : nat) (kv : list Qc) (cps : list (list Qc)) (dim : nat) : bool :=
  (2 * (p + 1) <=? length kv) && sortedb kv && forallb (qleb (qc (-1) 1)) kv && qltb (kn kv p) (kn kv (length kv - p - 1)) &&
  (length cps =? length kv - p - 1) && forallb (fun P => length P =? dim) cps.
Lemma fit_sound limit dim p kv cps : 0 < limit -> 0 < dim -> fit p kv cps dim = true -> sound limit dim (Spl [KnotAxis p kv] cps None).
Proof.
  intros L D F. unfold fit in F. apply andb_true_iff in F as [F F6]. apply andb_true_iff in F as [F F5]. apply andb_true_iff in F as [F F4]. apply andb_true_iff in F as [F F3].
  apply andb_true_iff in F as [F1 F2]. apply Nat.leb_le in F1. apply sortedb_nd in F2. apply Nat.eqb_eq in F5. rewrite forallb_forall in F3, F6.
  destruct (qltb_spec (kn kv p) (kn kv (length kv - p - 1))) as [F4'|]; [|discriminate]. apply sound_built; cbn [sp_axes sp_cps sp_weights]; auto; try discriminate.
  - constructor; [|constructor]. cbn [of_kind has_kvs sp_axes]. split; auto. split; [split; [lia|split; [exact F2|lia]]|]. apply Forall_forall. intros x X. specialize (F3 x X). now destruct (qleb_spec (qc (-1) 1) x).
  - apply Forall_forall. intros P HP. apply Nat.eqb_eq. auto.
  - split; [constructor; [|constructor]|].
    + cbn [ax_wf ax_n]. split; [lia|]. split; auto.
    + unfold sp_res. cbn [sp_cps sp_axes sp_weights map ax_n fold_right]. split; auto. lia.
Qed.
Lemma sound_dims limit dim s : sound limit dim s -> 0 < limit /\ 0 < dim /\ dim_of (sp_cps s) = dim.
Proof.
  intros (St & W & R & _). pose proof (dim_pos limit dim s St R) as D. destruct (kinds limit dim s St R) as (_ & Ll & Na). split; [destruct (sp_axes s); [easy|cbn in Ll; lia]|]. split; auto.
  pose proof (wf_positive s W) as P. unfold dim_of. destruct (sp_cps s); [cbn in P; lia|]. now inversion R.
Qed.

(** * Removal *)
Fixpoint drop_one (x : Qc) (kv : list Qc) : list Qc := match kv with [] => [] | y :: kv => if qeqb x y then kv else y :: drop_one x kv end.
Fixpoint place (x : Qc) (kv : list Qc) : nat := match kv with [] => 0 | y :: kv => if qeqb x y then 0 else S (place x kv) end.
Definition clampedb (p : nat) (kv : list Qc) : bool :=
  let n := length kv - p - 1 in
  qeqb (kn kv 0) (kn kv p) && qltb (kn kv p) (kn kv (p + 1)) && qltb (kn kv (n - 1)) (kn kv n) && qeqb (kn kv n) (kn kv (n + p)).
Definition removable (p : nat) (kv kv' : list Qc) (x : Qc) : bool :=
  (1 <=? p) && clampedb p kv' && (times x kv' <=? p) && qltb (kn kv' p) x && qltb x (kn kv' (length kv' - p - 1)) &&
  qeqb (kn kv p) (kn kv' p) && qeqb (kn kv (length kv - p - 1)) (kn kv' (length kv' - p - 1)).
Definition remove_one (s : spline) (k : nat) (x tol : Qc) : spline * Z :=
  match sp_axes s, k, sp_weights s with
  | [KnotAxis p kv], 0, None =>
      let kv' := drop_one x kv in
      let t := Spl [KnotAxis p kv'] (remove_at (place x kv - p) (sp_cps s)) None in
      if fit p kv' (sp_cps t) (dim_of (sp_cps s)) && removable p kv kv' x && isb (spline_dec (insert_one t 0 x) s) then (t, 1%Z) else (s, 0%Z)
  | _, _, _ => (s, 0%Z)
  end.
Lemma exact_within dim tol s t : (0 <= tol)%Qc -> (forall us, sp_domain s us -> sp_domain t us /\ forall d, d < dim -> sp_value t us d = sp_value s us d) -> within dim tol s t.
Proof.
  intros H G us D. destruct (G us D) as [D' V]. split; auto. intros d Hd. rewrite (V d Hd). replace (sp_value s us d - sp_value s us d)%Qc with 0%Qc by ring. exact H.
Qed.
Lemma remove_one_ok : removes_knot remove_one.
Proof.
  intros limit dim s k p kv x tol So En Ht. unfold remove_one. destruct (sp_axes s) as [|[q|q kw] [|a l]] eqn:Ax; try (left; now split).
  destruct k as [|k]; [|left; now split]. destruct (sp_weights s) eqn:W; [left; now split|]. cbn in En. injection En as -> ->.
  set (kv' := drop_one x kv). set (t := Spl [KnotAxis p kv'] _ None). cbn [sp_cps t].
  destruct (fit p kv' _ _ && removable p kv kv' x && isb (spline_dec (insert_one t 0 x) s))%bool eqn:B; [|left; now split]. right. split; [discriminate|].
  apply andb_true_iff in B as [B B3]. apply andb_true_iff in B as [B1 B2]. apply isb_true in B3. destruct (sound_dims limit dim s So) as (L & D & Ed). rewrite Ed in B1.
  pose proof (fit_sound limit dim _ _ _ L D B1) as Stt. fold t in Stt. clearbody kv'. unfold removable, clampedb in B2.
  rewrite !andb_true_iff in B2. destruct B2 as [[[[[[P1 [[[Q1 Q2] Q3] Q4]] P2] P3] P4] P5] P6]. apply Nat.leb_le in P1, P2.
  apply (reflect_iff _ _ (qeqb_spec _ _)) in Q1, Q4, P5, P6. apply (reflect_iff _ _ (qltb_spec _ _)) in Q2, Q3, P3, P4.
  destruct (insert_one_raises 0 limit dim t 0 p kv' x Stt eq_refl P1) as [_ G].
  { cbn [ax_clamped ax_n]. auto. } { reflexivity. } { intros y _. right. apply qabs_nonneg. }
  destruct (G P2) as (l1 & l2 & E & _ & _ & A & _ & _ & V); auto. clear G. rewrite B3 in A, V. rewrite Ax in A. cbn in A. injection A as A.
  split; [exact Stt|]. split; [split; [unfold has_kvs; now rewrite Ax|rewrite W; reflexivity]|]. split.
  - apply exact_within; auto. intros us Du. assert (sp_domain t us) as Dt.
    { unfold sp_domain in *. rewrite Ax in Du. cbn [t sp_axes]. destruct us as [|u us]; inversion Du as [|? ? ? ? Du1 Du2]. constructor; auto. unfold ax_domain in *. cbn [ax_lower ax_upper ax_n] in *. split; [rewrite <- P5|rewrite <- P6]; apply Du1. }
    split; auto. intros d Hd. symmetry. now apply V.
  - exists kv'. split; [|reflexivity]. rewrite A, E. symmetry. apply Permutation_middle.
Qed.

(** * Reduction *)
(** Inverse of the elevation by one. *)
Fixpoint unlift (p j : nat) (prev : list Qc) (cps : list (list Qc)) (n : nat) : list (list Qc) :=
  match n, cps with
  | S n, P :: cps =>
      let c := map (fun d => ((nth d P 0 - inj j / inj p * nth d prev 0) / (1 - inj j / inj p))%Qc) (seq 0 (length P)) in
      c :: unlift p (S j) c cps n
  | _, _ => []
  end.
Definition reduce_one (s : spline) (k : nat) (tol : Qc) : spline * bool :=
  match sp_axes s, k, sp_weights s with
  | [KnotAxis (S p) kv], 0, None =>
      let kv' := tl (removelast kv) in
      let a' := KnotAxis p kv' in
      let t := Spl [a'] (unlift (S p) 0 [] (sp_cps s) (S p)) None in
      if fit p kv' (sp_cps t) (dim_of (sp_cps s)) && isb (list_eq_dec Qc_eq_dec kv' (repeat (ax_lower a') (p + 1) ++ repeat (ax_upper a') (p + 1))) &&
         qeqb (ax_lower (KnotAxis (S p) kv)) (ax_lower a') && qeqb (ax_upper (KnotAxis (S p) kv)) (ax_upper a') && isb (spline_dec (lift t 0 1) s) then (t, true) else (s, false)
  | _, _, _ => (s, false)
  end.
Lemma reduce_one_ok : lowers_degree reduce_one.
Proof.
  intros limit dim s k a tol So K En Ht. unfold reduce_one. destruct (sp_axes s) as [|[q|[|p] kv] [|b l]] eqn:Ax; try (left; now split).
  destruct k as [|k]; [|left; now split]. destruct (sp_weights s) eqn:W; [left; now split|]. cbn in En. injection En as <-.
  set (kv' := tl (removelast kv)). set (a' := KnotAxis p kv'). set (t := Spl [a'] _ None). cbn [sp_cps t].
  destruct (fit p kv' _ _ && _ && _ && _ && _)%bool eqn:B; [|left; now split]. right. split; [reflexivity|].
  apply andb_true_iff in B as [B B5]. apply andb_true_iff in B as [B B4]. apply andb_true_iff in B as [B B3]. apply andb_true_iff in B as [B1 B2]. apply isb_true in B5, B2.
  destruct (qeqb_spec (ax_lower (KnotAxis (S p) kv)) (ax_lower a')) as [E3|]; [|discriminate]. destruct (qeqb_spec (ax_upper (KnotAxis (S p) kv)) (ax_upper a')) as [E4|]; [|discriminate].
  destruct (sound_dims limit dim s So) as (L & D & Ed). rewrite Ed in B1. pose proof (fit_sound limit dim _ _ _ L D B1) as Stt. fold a' in Stt. fold t in Stt.
  assert (one_span a') as O.
  { split; [|exact B2]. destruct Stt as (_ & (Wf & _) & _). inversion Wf as [|? ? Wf1]. apply Wf1. }
  destruct (lift_elevates limit dim t 0 a' 1 Stt eq_refl eq_refl O) as (A & _ & _ & V). rewrite B5 in A, V.
  split; [exact Stt|]. split; [split; [unfold has_kvs; now rewrite Ax|rewrite W; reflexivity]|]. split.
  - apply exact_within; auto. intros us Du. assert (sp_domain t us) as Dt.
    { unfold sp_domain in *. rewrite Ax in Du. cbn [t sp_axes]. destruct us as [|u us]; inversion Du as [|? ? ? ? Du1 Du2]. constructor; auto. unfold ax_domain in *. rewrite <- E3, <- E4. exact Du1. }
    split; auto. intros d Hd. symmetry. now apply V.
  - exists a'. split; [reflexivity|]. reflexivity.
Qed.

(** * Concrete calls *)
Definition state_of (r : reply) : state := match r with Returned _ st | Raises st => st | Undefined => empty end.
Definition flags_of (r : reply) : list bool := match r with Returned f _ => f | _ => [] end.
Definition is_returned (r : reply) : bool := match r with Returned _ _ => true | _ => false end.
Definition is_raised (r : reply) : bool := match r with Raises _ => true | _ => false end.
Lemma returned_eq r : is_returned r = true -> r = Returned (flags_of r) (state_of r).
Proof. destruct r; easy. Qed.
Lemma raised_eq r : is_raised r = true -> r = Raises (state_of r).
Proof. destruct r; easy. Qed.
Definition core_of (st : state) : spline := match s_core st with Some s => s | None => Spl [] [] None end.
Lemma core_eq st : (match s_core st with Some _ => true | None => false end) = true -> s_core st = Some (core_of st).
Proof. unfold core_of. destruct (s_core st); easy. Qed.

(** A straight line with a corner that is none, and a straight line of degree two. *)
Definition bent : spline := Spl [KnotAxis 1 [0; 0; qc 1 2; qc 3 4; 1; 1]%Qc] [[0; 0]; [1; 1]; [qc 3 2; qc 3 2]; [qc 2 1; 0]]%Qc None.
Definition bent_state : state := St (Some bent) None None None None None None 0.
Definition in_line : inputs := Inputs (Some [2%Z]) (Some [[0; 0; 0; 1; 1; 1]%Qc]) (Some [[0]; [1]; [inj 2]]%Qc) None.
Lemma complete_line : complete CBSpline in_line [2%Z] (Some [[0; 0; 0; 1; 1; 1]%Qc]) [[0]; [1]; [inj 2]]%Qc None.
Proof. cbn. repeat split; discriminate. Qed.
