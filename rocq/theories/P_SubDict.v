(** Proofs for parts of splines on several axes. *)
From Coq Require Import List Arith ZArith QArith Qcanon Lia Permutation Sorted.
From Verif Require Import Base BaseQc S_Value P_Value P_Bezier M_Core S_Core S_Files S_Create S_Bezier S_SubSpline M_SubSpline P_SubCut P_SubFinal P_SubExample W_SubSpline S_SubDict M_SubDict.
Import ListNotations.
Local Open Scope list_scope.
Local Open Scope nat_scope.

(** * Sorted items *)
Lemma insert_item_perm {A} (x : nat * A) l : Permutation (insert_item x l) (x :: l).
Proof. induction l as [|y l IH]; cbn [insert_item]; auto. destruct (_ <=? _); auto. rewrite IH. apply perm_swap. Qed.
Lemma sorted_items_perm {A} (l : list (nat * A)) : Permutation (sorted_items l) l.
Proof. induction l as [|x l IH]; cbn; auto. rewrite insert_item_perm. now constructor. Qed.
Lemma insert_item_sorted {A} (x : nat * A) l : StronglySorted (fun a b => fst a <= fst b) l -> StronglySorted (fun a b => fst a <= fst b) (insert_item x l).
Proof.
  induction 1 as [|y l H IH F]; cbn [insert_item]; [constructor; constructor|]. destruct (Nat.leb_spec (fst x) (fst y)).
  - constructor; [now constructor|]. constructor; auto. eapply Forall_impl; [|exact F]. cbn. intros; lia.
  - constructor; auto. rewrite insert_item_perm. constructor; [lia|auto].
Qed.
Lemma sorted_items_sorted {A} (l : list (nat * A)) : StronglySorted (fun a b => fst a <= fst b) (sorted_items l).
Proof. induction l; cbn; [constructor|now apply insert_item_sorted]. Qed.

Fixpoint entries {A} (j : nat) (P : list (option A)) : list (nat * A) :=
  match P with [] => [] | o :: P => match o with Some x => [(j, x)] | None => [] end ++ entries (S j) P end.
Lemma entries_ge {A} (P : list (option A)) : forall j, Forall (fun e => j <= fst e) (entries j P).
Proof.
  induction P as [|o P IH]; intros j; cbn [entries]; [constructor|]. apply Forall_app. split; [destruct o; constructor; cbn; auto|].
  eapply Forall_impl; [|apply IH]. cbn. intros; lia.
Qed.
Lemma entries_sorted {A} (P : list (option A)) : forall j, StronglySorted (fun a b => fst a < fst b) (entries j P).
Proof.
  induction P as [|[x|] P IH]; intros j; cbn [entries app]; auto; [constructor|]. constructor; auto. eapply Forall_impl; [|apply entries_ge]. cbn. intros; lia.
Qed.
Lemma entries_app {A} (P Q : list (option A)) : forall j, entries j (P ++ Q) = entries j P ++ entries (j + length P) Q.
Proof.
  induction P as [|o P IH]; intros j; cbn [entries app length]; [now rewrite Nat.add_0_r|]. rewrite IH, app_assoc.
  replace (S j + length P) with (j + S (length P)) by lia. reflexivity.
Qed.
Lemma entries_in {A} (f : nat -> option A) n : forall j k x, In (k, x) (entries j (map f (seq j n))) <-> j <= k < j + n /\ f k = Some x.
Proof.
  induction n as [|n IH]; intros j k x; cbn [seq map entries]; [cbn; lia|]. rewrite in_app_iff, IH. split.
  - intros [H|H]; [|destruct H as [H1 H2]; split; [lia|exact H2]]. destruct (f j) eqn:E; [|easy]. destruct H as [H|[]]. injection H as <- <-. split; [lia|auto].
  - intros [H1 H2]. destruct (Nat.eq_dec j k) as [<-|N]; [left; rewrite H2; now left|right]. split; [lia|auto].
Qed.

Lemma strict_unique {A} (l1 l2 : list (nat * A)) : StronglySorted (fun a b => fst a < fst b) l1 -> StronglySorted (fun a b => fst a < fst b) l2 ->
  (forall e, In e l1 <-> In e l2) -> l1 = l2.
Proof.
  intros H1. revert l2. induction H1 as [|x l1 H1 IH F1]; intros l2 H2 E.
  - destruct l2 as [|y l2]; auto. exfalso. apply (E y). now left.
  - destruct H2 as [|y l2 H2 F2]; [exfalso; apply (E x); now left|]. rewrite Forall_forall in F1, F2.
    assert (x = y) as ->.
    { destruct (proj1 (E x) (or_introl eq_refl)) as [X|X]; auto. destruct (proj2 (E y) (or_introl eq_refl)) as [Y|Y]; auto.
      specialize (F1 _ Y). specialize (F2 _ X). lia. }
    f_equal. apply IH; auto. intros e. split; intros I.
    + destruct (proj1 (E e) (or_intror I)) as [<-|X]; auto. specialize (F1 _ I). lia.
    + destruct (proj2 (E e) (or_intror I)) as [<-|X]; auto. specialize (F2 _ I). lia.
Qed.
Lemma lookup_in {A} (l : list (nat * A)) k x : NoDup (map fst l) -> (lookup k l = Some x <-> In (k, x) l).
Proof.
  induction l as [|[j y] l IH]; cbn [map lookup fst]; intros N; [easy|]. inversion N as [|? ? N1 N2]; subst. destruct (Nat.eqb_spec j k) as [->|H].
  - split; [intros E; injection E as ->; now left|]. intros [E|E]; [now injection E as ->|]. exfalso. apply N1. now apply (in_map fst) in E.
  - rewrite (IH N2). split; [now right|]. intros [E|E]; auto. injection E as -> _. easy.
Qed.
Lemma sorted_entries {A} (l : list (nat * A)) n : NoDup (map fst l) -> (forall k x, In (k, x) l -> k < n) -> sorted_items l = entries 0 (plan_of n l).
Proof.
  intros N B. apply strict_unique.
  - assert (NoDup (map fst (sorted_items l))) as N' by (eapply Permutation_NoDup; [|exact N]; apply Permutation_map; symmetry; apply sorted_items_perm).
    pose proof (sorted_items_sorted l) as Hs. induction Hs as [|x l' Hs IH F]; [constructor|]. inversion N' as [|? ? N1 N2]; subst. constructor; auto.
    rewrite Forall_forall in *. intros e I. specialize (F e I). assert (fst x <> fst e) by (intros E; apply N1; rewrite E; now apply in_map). lia.
  - apply entries_sorted.
  - intros [k x]. unfold plan_of. rewrite entries_in, (lookup_in l k x N). split.
    + intros I. apply (Permutation_in _ (sorted_items_perm l)) in I. split; auto. specialize (B _ _ I). lia.
    + intros [_ I]. now apply (Permutation_in _ (Permutation_sym (sorted_items_perm l))).
Qed.

(** * Values *)
Fixpoint values (P : list (option (list Qc))) : nat := match P with [] => 0 | o :: P => (if is_value o then 1 else 0) + values P end.
Lemma parts_length A P A' : parts A P A' -> length P = length A /\ length A' + values P = length A.
Proof. induction 1; cbn [length values is_value]; lia. Qed.

Lemma f2_split {A B} (R : A -> B -> Prop) A1 A2 u1 u2 : length u1 = length A1 -> Forall2 R (A1 ++ A2) (u1 ++ u2) -> Forall2 R A1 u1 /\ Forall2 R A2 u2.
Proof.
  revert u1. induction A1 as [|a A1 IH]; intros [|u u1] L H; try discriminate L; [split; [constructor|exact H]|]. cbn [app] in H. inversion H; subst.
  destruct (IH u1) as [H1 H2]; auto.
Qed.

Section Run.
Variables (limit dim : nat) (tol : Qc) (ins : spline -> nat -> Qc -> spline) (s : spline).
Hypothesis T : (0 < tol)%Qc.
Hypothesis RM : raises_multiplicity tol ins.
Hypothesis So : sound limit dim s.
Definition step (o : option spline) (item : nat * list Qc) : option spline := match o with Some c => sub_spline limit tol ins c (fst item) (snd item) | None => None end.

Lemma run P2 : forall A1 A2, sp_axes s = A1 ++ A2 -> Forall2 (fun a o => match o with Some it => item_ok tol a it | None => True end) A2 P2 ->
  values P2 < length (sp_axes s) ->
  exists r A2', fold_left step (rev (entries (length A1) P2)) (Some s) = Some r /\ sound limit dim r /\ (sp_weights r = None <-> sp_weights s = None) /\
    sp_axes r = A1 ++ A2' /\ parts A2 P2 A2' /\
    forall u1 u2 d, length u1 = length A1 -> sp_domain r (u1 ++ u2) -> d < dim -> no_jump A2 P2 u2 -> sp_value r (u1 ++ u2) d = sp_value s (u1 ++ original A2 P2 u2) d.
Proof.
  induction P2 as [|o P2 IH]; intros A1 A2 Ea F Hv.
  - inversion F; subst. exists s, []. cbn [entries rev fold_left]. split; auto. split; auto. split; [easy|]. split; auto. split; [constructor|].
    intros u1 u2 d L D _ _. apply Forall2_len in D. rewrite Ea, !app_length in D. cbn [length] in D. destruct u2; [reflexivity|cbn [length] in D; lia].
  - inversion F as [|a ? A2t ? Fa Ft]; subst. cbn [values] in Hv.
    destruct (IH (A1 ++ [a]) A2t) as (r1 & A2' & E1 & S1 & K1 & Ax1 & Pt & V1); auto; [rewrite <- app_assoc; exact Ea|lia|].
    rewrite app_length in E1. cbn [length] in E1. rewrite Nat.add_1_r in E1. rewrite <- app_assoc in Ax1. cbn [app] in Ax1.
    cbn [entries]. rewrite rev_app_distr, fold_left_app, E1.
    destruct (parts_length _ _ _ Pt) as [Lp Lv]. assert (length (sp_axes s) = length A1 + S (length A2t)) as Ls by (rewrite Ea, app_length; reflexivity).
    assert (nth_error (sp_axes r1) (length A1) = Some a) as En. { rewrite Ax1, nth_error_app2, Nat.sub_diag by lia. reflexivity. }
    assert (firstn (length A1) (sp_axes r1) = A1) as Ef. { rewrite Ax1, firstn_app, Nat.sub_diag, firstn_all, firstn_O, app_nil_r. reflexivity. }
    assert (skipn (S (length A1)) (sp_axes r1) = A2') as Es. { rewrite Ax1, skipn_app, skipn_all2 by lia. replace (S (length A1) - length A1) with 1 by lia. reflexivity. }
    destruct o as [it|]; cbn [rev app fold_left].
    + cbn [step fst snd]. destruct it as [|x [|x1 [|]]]; cbn [item_ok] in Fa; try contradiction.
      * cbn [is_value] in Hv. destruct (C83_slice_holds limit dim tol ins r1 (length A1) a x T RM S1) as (r & Er & Sr & Kr & Ax & V); auto.
        { rewrite Ax1, app_length. cbn [length]. lia. }
        rewrite Ef, Es in Ax. exists r, A2'. split; [exact Er|]. split; [exact Sr|]. split; [now rewrite Kr|]. split; [exact Ax|]. split; [now constructor|].
        intros u1 u2 d L D Hd J. rewrite V by auto. rewrite <- L, firstn_app, skipn_app, Nat.sub_diag, firstn_all, skipn_all, firstn_O, app_nil_r. cbn [skipn app].
        change (u1 ++ x :: u2) with (u1 ++ [x] ++ u2). rewrite app_assoc. unfold sp_domain in D. rewrite Ax in D. apply f2_split in D as [D1 D2]; [|exact L].
        rewrite V1; auto.
        -- rewrite <- app_assoc. reflexivity.
        -- rewrite app_length. cbn [length]. rewrite app_length. cbn. lia.
        -- unfold sp_domain. rewrite Ax1, <- app_assoc. apply Forall2_app; auto. constructor; auto. apply Fa.
      * destruct Fa as (C0 & C1 & X). destruct a as [p|p kv].
        -- destruct (C83_bezier_holds limit dim tol ins r1 (length A1) p x x1 T RM S1 En C0 C1 X) as (r & Er & Sr & Kr & Ax & V).
           rewrite Ax1 in Ax. exists r, (BezierAxis p :: A2'). split; [exact Er|]. split; [exact Sr|]. split; [now rewrite Kr|]. split; [exact Ax|]. split; [now constructor|].
           intros u1 u2 d L D Hd J. rewrite V by auto. unfold sp_domain in D. rewrite Ax in D. apply f2_split in D as [D1 D2]; [|exact L].
           destruct (f2_cons _ _ _ _ D2) as (u & u2' & -> & Du & D3). cbn [original no_jump] in *. destruct J as [_ J].
           unfold S_Bezier.rescaled. rewrite nth_mid', set_nth_mid' by auto. set (w := (x + (x1 - x) * u)%Qc).
           change (u1 ++ w :: u2') with (u1 ++ [w] ++ u2'). rewrite app_assoc. rewrite V1; auto.
           ++ rewrite <- app_assoc. reflexivity.
           ++ rewrite !app_length. cbn [length]. lia.
           ++ unfold sp_domain. rewrite Ax1, <- app_assoc. apply Forall2_app; auto. constructor; auto. destruct C0 as (_ & _ & [Q1 _] & _), C1 as (_ & _ & [_ Q2] & _), Du as [Q3 Q4].
              cbn [ax_lower ax_upper] in *. unfold ax_domain, w. cbn [ax_lower ax_upper]. clear - T X Q1 Q2 Q3 Q4. assert (x <= x1)%Qc by qlra. split; [qnra|]. replace 1%Qc with (x + (x1 - x) * 1 + (1 - x1))%Qc by ring. qnra.
        -- destruct (C83_interval_holds limit dim tol ins r1 (length A1) p kv x x1 T RM S1 En C0 C1 X) as (r & K & Er & Sr & Kr & Ax & _ & CK & LK & UK & V).
           rewrite Ef, Es in Ax. exists r, (KnotAxis p K :: A2'). split; [exact Er|]. split; [exact Sr|]. split; [now rewrite Kr|]. split; [exact Ax|]. split; [now constructor|].
           intros u1 u2 d L D Hd J. pose proof D as D'. unfold sp_domain in D. rewrite Ax in D. apply f2_split in D as [D1 D2]; [|exact L].
           destruct (f2_cons _ _ _ _ D2) as (u & u2' & -> & Du & D3). cbn [original no_jump] in *. destruct J as [J0 J].
           rewrite V; auto; [|now rewrite nth_mid' by auto].
           change (u1 ++ u :: u2') with (u1 ++ [u] ++ u2'). rewrite app_assoc. rewrite V1; auto.
           ++ rewrite <- app_assoc. reflexivity.
           ++ rewrite !app_length. cbn [length]. lia.
           ++ unfold sp_domain. rewrite Ax1, <- app_assoc. apply Forall2_app; auto. constructor; auto. destruct C0 as (_ & _ & [Q1 _] & _), C1 as (_ & _ & [_ Q2] & _), Du as [Q3 Q4].
              rewrite LK in Q3. rewrite UK in Q4. split; [now apply Qcle_trans with x|now apply Qcle_trans with x1].
    + exists r1, (a :: A2'). split; [reflexivity|]. split; [exact S1|]. split; [exact K1|]. split; [exact Ax1|]. split; [now constructor|].
      intros u1 u2 d L D Hd J. destruct u2 as [|u u2].
      { apply Forall2_len in D. rewrite Ax1, !app_length in D. cbn [length] in D. lia. }
      cbn [original no_jump] in *. change (u1 ++ u :: u2) with (u1 ++ [u] ++ u2) in *. rewrite app_assoc in *. rewrite V1; auto.
      -- rewrite <- app_assoc. reflexivity.
      -- rewrite !app_length. cbn [length]. lia.
Qed.
End Run.

Lemma plan_items tol axes (l : list (nat * list Qc)) : NoDup (map fst l) ->
  (forall k it, In (k, it) l -> exists a, nth_error axes k = Some a /\ item_ok tol a it) ->
  Forall2 (fun a o => match o with Some it => item_ok tol a it | None => True end) axes (plan_of (length axes) l).
Proof.
  intros N H. unfold plan_of. assert (forall j A, (forall i, nth_error A i = nth_error axes (j + i)) ->
    Forall2 (fun a o => match o with Some it => item_ok tol a it | None => True end) A (map (fun k => lookup k l) (seq j (length A)))) as G; [|apply (G 0); auto].
  intros j A. revert j. induction A as [|a A IH]; intros j E; cbn [length seq map]; constructor.
  - destruct (lookup j l) as [it|] eqn:El; auto. apply (lookup_in l j it N) in El. destruct (H _ _ El) as (a' & E' & I).
    specialize (E 0). cbn in E. rewrite Nat.add_0_r, E' in E. now injection E as ->.
  - apply IH. intros i. specialize (E (S i)). cbn in E. rewrite E. f_equal. lia.
Qed.
Lemma values_count P : values P = length (filter is_value P).
Proof. induction P as [|o P IH]; cbn; auto. destruct (is_value o); cbn; lia. Qed.

Lemma dict_values limit dim tol ins s l : (0 < tol)%Qc -> raises_multiplicity tol ins -> sound limit dim s -> NoDup (map fst l) ->
  (forall k it, In (k, it) l -> exists a, nth_error (sp_axes s) k = Some a /\ item_ok tol a it) ->
  let P := plan_of (length (sp_axes s)) l in length (filter is_value P) < length (sp_axes s) ->
  exists r, sub_splines limit tol ins s l = Some r /\ sound limit dim r /\ (sp_weights r = None <-> sp_weights s = None) /\
    parts (sp_axes s) P (sp_axes r) /\
    forall us d, sp_domain r us -> d < dim -> no_jump (sp_axes s) P us -> sp_value r us d = sp_value s (original (sp_axes s) P us) d.
Proof.
  intros T RM So N H P C. rewrite <- values_count in C.
  destruct (run limit dim tol ins s T RM So P [] (sp_axes s) eq_refl (plan_items tol _ l N H) C) as (r & A' & E & Sr & Kr & Ax & Pt & V).
  cbn [app length] in *. rewrite <- Ax in Pt. exists r. split; [|split; [exact Sr|split; [exact Kr|split; [exact Pt|]]]].
  - unfold sub_splines. rewrite (sorted_entries l (length (sp_axes s)) N); [exact E|]. intros k it I. destruct (H _ _ I) as (a & En & _). apply nth_error_Some. congruence.
  - intros us d D Hd J. apply (V [] us d); auto.
Qed.
Lemma dict_order limit tol ins s l l' : NoDup (map fst l) -> Permutation l l' -> sub_splines limit tol ins s l = sub_splines limit tol ins s l'.
Proof.
  intros N Pm. unfold sub_splines. replace (sorted_items l') with (sorted_items l); auto.
  assert (NoDup (map fst l')) as N' by (eapply Permutation_NoDup; [|exact N]; now apply Permutation_map).
  set (n := S (list_max (map fst l))). assert (forall k x, In (k, x) l -> k < n) as B.
  { intros k x I. unfold n. pose proof (proj1 (list_max_le (map fst l) (list_max (map fst l))) (le_n _)) as F. rewrite Forall_forall in F.
    specialize (F k (in_map fst _ _ I)). lia. }
  rewrite (sorted_entries l n N B), (sorted_entries l' n N').
  - f_equal. unfold plan_of. apply map_ext. intros k. destruct (lookup k l) as [x|] eqn:E.
    + apply (lookup_in l k x N) in E. symmetry. apply (lookup_in l' k x N'). now apply (Permutation_in _ Pm).
    + destruct (lookup k l') as [x|] eqn:E'; auto. apply (lookup_in l' k x N') in E'. apply (Permutation_in _ (Permutation_sym Pm)) in E'. apply (lookup_in l k x N) in E'. congruence.
  - intros k x I. apply (B k x). now apply (Permutation_in _ (Permutation_sym Pm)).
Qed.
Lemma dict_example : let planes := [(0, [1%Qc]); (1, [qc 1 4; qc 1 2])] in
  NoDup (map fst planes) /\
  (forall k it, In (k, it) planes -> exists a, nth_error (sp_axes sub_surface) k = Some a /\ item_ok (qc 1 1000) a it) /\
  length (filter is_value (plan_of 2 planes)) < 2 /\
  original (sp_axes sub_surface) (plan_of 2 planes) [qc 1 3] = [1; qc 1 3]%Qc.
Proof.
  split; [|split; [|split; [cbn; lia|reflexivity]]].
  - constructor; [cbn; lia|]. constructor; [easy|constructor].
  - intros k it [H|[H|[]]]; injection H as <- <-; eexists; (split; [reflexivity|]).
    + cut_ok.
    + split; [cut_ok|split; [cut_ok|vm_compute; discriminate]].
Qed.
