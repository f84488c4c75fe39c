(** Concrete witnesses for the knot query and refinement theorems. *)
From Coq Require Import List Arith ZArith QArith Qcanon Lia Permutation Sorted.
From Verif Require Import Base BaseQc BaseSort S_Spline S_Value M_Knots S_Knots P_KnotInsert P_Knots P_Insert
  P_Greville W_KnotInsert.
Import ListNotations.
Local Open Scope nat_scope.

(** An insertion that satisfies the contracts: every copy is inserted. *)
Fixpoint lib_insert (kv : list Qc) (x : Qc) (m : nat) : list Qc :=
  match m with O => kv | S m => qinsert x (lib_insert kv x m) end.
(** One that keeps every multiplicity at or below lim. *)
Definition lib_limited (lim : nat) (kv : list Qc) (x : Qc) (m : nat) : list Qc :=
  lib_insert kv x (Nat.min m (lim - requests x kv)).
Lemma lib_insert_spec kv x m : qsorted kv -> qsorted (lib_insert kv x m) /\
  Permutation (lib_insert kv x m) (kv ++ repeat x m).
Proof.
  intros S. induction m as [|m [S' P]]; cbn.
  - rewrite app_nil_r. auto.
  - split; [now apply qinsert_sorted|]. etransitivity; [apply qinsert_perm|].
    etransitivity; [apply perm_skip, P|]. apply Permutation_middle.
Qed.
Lemma lib_limited_copies lim : inserts_copies (lib_limited lim).
Proof.
  intros kv x m ND. apply nd_sorted in ND. exists (Nat.min m (lim - requests x kv)). split; [lia|].
  destruct (lib_insert_spec kv x (Nat.min m (lim - requests x kv)) ND) as [S P].
  split; [now apply nd_sorted|exact P].
Qed.
Lemma lib_limited_new lim : 0 < lim -> inserts_new (lib_limited lim).
Proof.
  intros Hl kv x ND Hx _ _. apply nd_sorted in ND. unfold lib_limited.
  assert (E : requests x kv = 0).
  { destruct (requests x kv) eqn:E; auto. exfalso. apply Hx, requests_in. lia. }
  rewrite E, Nat.sub_0_r, Nat.min_l by lia. destruct (lib_insert_spec kv x 1 ND) as [S P].
  split; [now apply nd_sorted|]. etransitivity; [exact P|]. apply Permutation_app_comm.
Qed.

(** Equality of computed values. *)
Ltac qceq :=
  vm_compute;
  repeat match goal with
  | |- @eq Qc _ _ => apply Qc_is_canon; reflexivity
  | |- Some _ = Some _ => apply f_equal
  | |- (_, _) = (_, _) => apply f_equal2
  | |- _ :: _ = _ :: _ => apply f_equal2
  | |- KnotAxis _ _ = KnotAxis _ _ => apply f_equal2
  | |- {| sp_axes := ?a; sp_cps := ?b; sp_weights := ?c |} = {| sp_axes := ?a'; sp_cps := ?b'; sp_weights := ?c' |} =>
      apply (f_equal3 Spl)
  | |- _ => reflexivity
  end.

Lemma apart_dec eps l :
  forallb (fun x => forallb (fun y => qeqb x y || qleb eps (qabs (x - y)))%bool l) l = true -> apart eps l.
Proof.
  intros H x y Hx Hy. rewrite forallb_forall in H. specialize (H x Hx).
  rewrite forallb_forall in H. specialize (H y Hy). apply Bool.orb_prop in H.
  destruct H as [H|H]; [left; now destruct (qeqb_spec x y)|right; now destruct (qleb_spec eps (qabs (x - y)))].
Qed.

(** std::numeric_limits<double>::epsilon() *)
Definition eps52 : Qc := qc 1 4503599627370496.

(** C16: for every tolerance there is a knot vector whose upper bound is not a
    unique knot. *)
Lemma unique_misses_upper :
  forall eps, (0 < eps)%Qc -> exists p n kv, knot_vector p n kv /\ clamped_ends p kv /\
    last (unique_knots eps p kv) 0%Qc <> kn kv n.
Proof.
  intros eps He. exists 1, 3, [0; 0; eps; eps + eps * qc 1 2; eps + eps * qc 1 2]%Qc.
  assert (Hh : (0 < eps * qc 1 2)%Qc).
  { replace 0%Qc with (0 * qc 1 2)%Qc by ring. apply Qcmult_lt_compat_r; auto. reflexivity. }
  assert (H1 : (eps * qc 1 2 < eps)%Qc).
  { replace eps with (eps * qc 1 2 + eps * qc 1 2)%Qc at 2; [qlra|].
    transitivity (eps * (qc 1 2 + qc 1 2))%Qc; [ring|].
    replace (qc 1 2 + qc 1 2)%Qc with 1%Qc by (apply Qc_is_canon; reflexivity). ring. }
  set (h := (eps * qc 1 2)%Qc) in *. clearbody h.
  split; [|split].
  - split; [reflexivity|]. split.
    + apply nd_adjacent. intros [|[|[|[|a]]]] Ha; cbn in *; try lia; try qlra; try apply Qcle_refl.
    + cbn. qlra.
  - split; reflexivity.
  - unfold unique_knots. cbn [length Nat.mul Nat.add Nat.sub skipn firstn std_unique unique_from].
    destruct (near_spec eps 0 eps) as [G|_].
    { rewrite qabs_le in G; qlra. }
    destruct (near_spec eps eps (eps + h)) as [_|G].
    2:{ exfalso. apply G. rewrite qabs_le; qlra. }
    cbn. intros E. assert (h = 0)%Qc by (replace h with (eps + h - eps)%Qc by ring; rewrite <- E; ring). subst h. qlra.
Qed.
(** C16: without end multiplicities the two lists do not even have the same length. *)
Lemma multiplicity_mismatch :
  exists eps p n kv, (0 < eps)%Qc /\ knot_vector p n kv /\ apart eps kv /\
    length (unique_knots eps p kv) <> length (run_lengths (near eps) kv).
Proof.
  exists (qc 1 100), 1, 2, [0; 1; inj 2; inj 3]%Qc. split; [reflexivity|]. split; [lit|].
  split; [apply apart_dec; vm_compute; reflexivity|]. vm_compute. discriminate.
Qed.
(** C18: two different requests closer than the tolerance become one double knot. *)
Lemma near_requests_merge :
  exists p n kv ks kv' flags, knot_vector p n kv /\
    (forall x, In x ks -> (kn kv p < x)%Qc /\ (x < kn kv n)%Qc) /\ NoDup ks /\
    insert_knots_core (guarded_insert (lib_limited p) p) eps52 kv ks = Some (kv', flags) /\
    flags = [Some true; Some true] /\ ~ Permutation kv' (kv ++ ks).
Proof.
  exists 2, 3, [0; 0; 0; 1; 1; 1]%Qc, [qc 1 2; qc 1 2 + qc 1 9007199254740992]%Qc. eexists. eexists.
  split; [lit|]. split; [lit|]. split.
  { constructor; [|constructor; [easy|constructor]]. intros [H|[]]. revert H. vm_compute. discriminate. }
  split; [vm_compute; reflexivity|]. split; [reflexivity|].
  intros P. assert (G : In (qc 1 2 + qc 1 9007199254740992)%Qc [0; 0; 0; qc 1 2; qc 1 2; 1; 1; 1]%Qc).
  { eapply Permutation_in; [symmetry; exact P|]. apply in_or_app. right. right. now left. }
  cbn in G. repeat (destruct G as [G|G]; [revert G; vm_compute; discriminate|]). exact G.
Qed.
(** C14: a span narrower than the tolerance allows does not get n different knots. *)
Lemma narrow_span_merges :
  exists p m kv n kv' flags, knot_vector p m kv /\ clamped_ends p kv /\
    refine_axis (lib_limited p) (qc 1 10000000000000000) eps52 p kv n = Inserted kv' flags /\
    forall new, refines_spans p kv n new -> ~ Permutation kv' (kv ++ new).
Proof.
  exists 2, 3, [0; 0; 0; eps52; eps52; eps52]%Qc, 2. eexists. eexists.
  split; [lit|]. split; [split; reflexivity|]. split; [vm_compute; reflexivity|].
  intros new [H _] P. specialize (H 2 ltac:(cbn; lia) ltac:(vm_compute; reflexivity)).
  assert (I : In (nth 1 (equidistant (kn [0; 0; 0; eps52; eps52; eps52]%Qc 2) (kn [0; 0; 0; eps52; eps52; eps52]%Qc 3) 2) 0%Qc) new).
  { assert (G : In (nth 1 (equidistant (kn [0; 0; 0; eps52; eps52; eps52]%Qc 2) (kn [0; 0; 0; eps52; eps52; eps52]%Qc (2 + 1)) 2) 0%Qc)
      (filter (fun x => qltb (kn [0; 0; 0; eps52; eps52; eps52]%Qc 2) x && qltb x (kn [0; 0; 0; eps52; eps52; eps52]%Qc (2 + 1)))%bool new)).
    { rewrite H. apply nth_In. cbn. lia. }
    apply filter_In in G. apply G. }
  assert (G := in_or_app [0; 0; 0; eps52; eps52; eps52]%Qc new _ (or_intror I)).
  eapply Permutation_in in G; [|symmetry; exact P].
  cbn [In] in G. repeat (destruct G as [G|G]; [revert G; vm_compute; discriminate|]). exact G.
Qed.
(** C17 needs end multiplicities for the bounds. *)
Lemma greville_unclamped :
  exists p n kv tol g x, 0 < p /\ knot_vector p n kv /\ greville (KnotAxis p kv) tol = Some g /\
    In x g /\ (x < kn kv p)%Qc.
Proof.
  exists 2, 3, [0; 1; inj 2; inj 3; inj 4; inj 5]%Qc, 0%Qc. eexists. exists (qc 3 2).
  split; [lia|]. split; [lit|]. split; [vm_compute; reflexivity|]. split; [|vm_compute; reflexivity].
  left. apply Qc_is_canon. reflexivity.
Qed.
