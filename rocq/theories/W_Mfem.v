(** Witnesses and assembly of the theorems of T_Mfem. *)
From Coq Require Import List Arith ZArith Bool QArith Qcanon Lia Permutation.
From Verif Require Import Base BaseQc S_Grid S_Spline S_Value M_Core S_Core P_Core W_Core M_Files S_Files P_Files W_Files S_Irit M_Mfem S_Mfem P_Mfem.
Import ListNotations.
Local Open Scope list_scope.
Local Open Scope nat_scope.

Lemma C38_dof_mapping_holds : forall res, mfem_shape res ->
  exists ids inverse, dof_mapping res = Some (ids, inverse) /\ renumbering (fold_right Nat.mul 1 res) ids inverse.
Proof. exact dof_renumbering. Qed.

Lemma C38_dof_example_holds : mfem_shape [3; 4] /\
  option_map fst (dof_mapping [3; 4]) = Some [0; 2; 11; 9; 1; 10; 3; 6; 5; 8; 4; 7].
Proof. split; [split; [auto|repeat constructor; lia]|vm_compute; reflexivity]. Qed.

Lemma C38_load_holds : forall limit s, storable limit s -> weights_ok s -> mfem_shape (sp_res s) ->
  exists f t, export_mfem s = Some f /\ load_mfem limit f = Some (Object (Some CNurbs) t) /\ nurbs_of s t.
Proof.
  intros limit s St W M. destruct (load_nurbs limit s St W M) as (f & E & L).
  exists f, (as_nurbs s). refine (conj E (conj L _)). apply as_nurbs_of.
Qed.

Lemma C38_nurbs_form_holds : forall s t, nurbs_of s t ->
  (sp_weights s <> None -> Forall (fun a => exists p kv, a = KnotAxis p kv) (sp_axes s) -> t = s) /\
  (sp_wf s -> forall us, sp_domain s us -> forall d, sp_value t us d = sp_value s us d).
Proof.
  intros s t H. split; [|intros W us D d; now apply nurbs_values].
  intros N K. destruct H as (E1 & E2 & F). destruct s as [a c w], t as [a' c' w']. cbn in *. subst c'. f_equal.
  - clear - K F. induction F as [|x y l l' H F IH]; [easy|]. inversion K as [|? ? (p & kv & ->)]; subst. f_equal; [exact H|now apply IH].
  - rewrite E2. now destruct w.
Qed.

Definition square (w : list Qc) : spline :=
  let kv := [0; 0; 1; 1]%Qc in
  Spl [KnotAxis 1 kv; KnotAxis 1 kv] [[0; 0]; [1; 0]; [0; 1]; [1; 1]]%Qc (Some w).

Definition ones_but_last : list Qc := [1; 1; 1; qc 2 1]%Qc.

Lemma square_ok w : length w = 4 -> Forall (fun x => x <> 0%Qc) w ->
  storable 3 (square w) /\ weights_ok (square w) /\ mfem_shape (sp_res (square w)).
Proof.
  intros L F. refine (conj _ (conj F _)).
  - exists [1; 1]%Z, (Some [unit_knots 1; unit_knots 1]), [[0; 0]; [1; 0]; [0; 1]; [1; 1]]%Qc, (Some w).
    split; [|split].
    + refine (conj _ (conj _ (conj _ (conj _ _)))); [discriminate| | |reflexivity|exact L].
      * constructor; [exact (unit_knots_fit 1)|]. constructor; [exact (unit_knots_fit 1)|constructor].
      * exists 2. split; [lia|]. repeat constructor.
    + split; [cbn; lia|]. constructor; [apply unit_knots_bound|]. constructor; [apply unit_knots_bound|constructor].
    + refine (conj eq_refl (conj _ (conj eq_refl eq_refl))). constructor; [now exists 1|]. constructor; [now exists 1|constructor].
  - split; [now left|]. cbn. repeat constructor.
Qed.

Lemma C38_load_example_holds : storable 3 (square ones_but_last) /\ weights_ok (square ones_but_last) /\
  mfem_shape (sp_res (square ones_but_last)) /\
  (match export_mfem (square ones_but_last) with Some f => length f | None => 0 end) = 37.
Proof.
  destruct (square_ok ones_but_last) as (A & B & C); [reflexivity|repeat constructor; discriminate|].
  refine (conj A (conj B (conj C _))). vm_compute. reflexivity.
Qed.

Lemma C38_solution_partial_holds : forall limit reference w ids inverse values dim f,
  storable limit reference -> sp_weights reference = Some w -> weights_ok reference ->
  Forall (fun a => exists p kv, a = KnotAxis p kv) (sp_axes reference) -> mfem_shape (sp_res reference) ->
  dof_mapping (sp_res reference) = Some (ids, inverse) ->
  length values = length (sp_cps reference) -> 0 < dim -> Forall (fun r => length r = dim) values ->
  solution_file ids values f ->
  exists w', read_solution limit f reference = Some (Spl (sp_axes reference) values (Some w')) /\
    listed inverse w w' /\ (forall x, Forall (eq x) w -> w' = w).
Proof.
  intros limit reference w ids inverse values dim f St Ew W K M Ed Lv D R Sf.
  unfold weights_ok in W. rewrite Ew in W.
  destruct (read_ok limit f reference w values dim St Ew K W M Lv D R (file_rows _ _ _ _ _ Ed Sf)) as (ids' & inv' & w' & Ed' & Et & Er).
  rewrite Ed in Ed'. injection Ed' as <- <-. exists w'. refine (conj Er (conj _ _)); [now apply take_listed|].
  intros x Fx. pose proof (proj1 (take_listed _ _ _) Et) as Li.
  assert (length w' = length w) as L.
  { rewrite <- (Forall2_len _ _ _ Li). destruct (dof_renumbering _ M) as (i & j & E & (_ & Lj & _)).
    rewrite Ed in E. injection E as <- <-. destruct (storable_length _ _ St) as [_ Lw]. rewrite Ew in Lw.
    rewrite Lj, Lw. apply P_Grid.fold_right_mul_prodn. }
  assert (Forall (eq x) w') as Fx'.
  { clear - Li Fx. unfold listed in Li. induction Li as [|i r is rs H F IH]; constructor; auto.
    apply nth_error_In in H. rewrite Forall_forall in Fx. now apply Fx. }
  clear - L Fx Fx'. revert w Fx L. induction Fx' as [|y l <- F IH]; intros w Fx L; destruct w; try easy.
  inversion Fx; subst. f_equal. apply IH; [easy|now injection L].
Qed.

Definition moved : list mline :=
  [Key KSpace; Key KCollection; Key KVDim; Key KOrdering;
   Row [MR 1; MR 1]; Row [MR (qc 2 1); MR 1]; Row [MR (qc 2 1); MR (qc 2 1)]; Row [MR 1; MR (qc 2 1)]]%Qc.

Definition moved_values : list (list Qc) := [[1; 1]; [qc 2 1; 1]; [1; qc 2 1]; [qc 2 1; qc 2 1]]%Qc.

Lemma moved_file : solution_file [0; 1; 3; 2] moved_values moved.
Proof.
  exists [Key KSpace; Key KCollection; Key KVDim], [[1; 1]; [qc 2 1; 1]; [qc 2 1; qc 2 1]; [1; qc 2 1]]%Qc.
  split; [reflexivity|]. split; [cbn; intuition discriminate|]. repeat constructor.
Qed.

Lemma C38_solution_example_holds : dof_mapping [2; 2] = Some ([0; 1; 3; 2], [0; 1; 3; 2]) /\
  solution_file [0; 1; 3; 2] moved_values moved.
Proof. split; [vm_compute; reflexivity|exact moved_file]. Qed.

Lemma C38_solution_refuted_holds : exists s f t, storable 3 s /\ weights_ok s /\ mfem_shape (sp_res s) /\
  export_mfem s = Some f /\ load_mfem 3 f = Some (Object (Some CNurbs) s) /\
  read_solution 3 f s = Some t /\ sp_cps t = sp_cps s /\ sp_axes t = sp_axes s /\ sp_weights t <> sp_weights s.
Proof.
  destruct (square_ok ones_but_last) as (A & B & C); [reflexivity|repeat constructor; discriminate|].
  destruct (load_nurbs 3 _ A B C) as (f & E & L).
  exists (square ones_but_last), f, (square [1; 1; qc 2 1; 1]%Qc).
  refine (conj A (conj B (conj C (conj E (conj L (conj _ (conj eq_refl (conj eq_refl _)))))))); [|cbn; discriminate].
  destruct (export_solution 3 _ A C) as (f' & E' & So). rewrite E in E'. injection E' as <-.
  destruct (read_ok 3 f (square ones_but_last) ones_but_last (sp_cps (square ones_but_last)) 2) as (ids & inv & w' & Ed & Et & Er); auto.
  - repeat constructor; eauto.
  - repeat constructor.
  - rewrite Er. unfold square. cbn [sp_axes sp_cps]. do 2 f_equal. f_equal.
    change (sp_res (square ones_but_last)) with [2; 2] in Ed.
    assert (inv = [0; 1; 3; 2]) as -> by (vm_compute in Ed; congruence). vm_compute in Et. injection Et as <-.
    reflexivity.
Qed.

Lemma C39_boundary_holds : forall (A : Type) (point : nat -> nat -> A) d cmrs inverse table, d = 2 \/ d = 3 ->
  Forall (fun c => length c = d /\ Forall (fun n => 1 <= n) c) cmrs ->
  length table = length cmrs -> Forall (fun row => length row = 2 * d) table ->
  Forall2 (fun n line =>
    let '(e, f, z) := n in
    fst line = (- z)%Z /\
    exists bits js, Permutation bits (face_bits d f) /\ around bits /\
      Forall2 (fun b j => nth_error (corner_vertices point cmrs) j = Some (point e (at_corner (nth e cmrs []) b))) bits js /\
      snd line = map (fun j => nth j inverse 0) js)
    (negatives 0 table) (boundary_lines d inverse table).
Proof. intros A point d cmrs inverse table H1 H2 H3 H4. exact (all_lines point d cmrs inverse table H1 H2 H3 H4). Qed.

Lemma C39_example_holds :
  boundary_lines 2 [0; 1; 2; 3; 1; 4; 5; 2] [[-1; 4; -2; -2]; [1; -3; -2; -4]]%Z =
    [(1%Z, [0; 3]); (2%Z, [0; 1]); (2%Z, [3; 2]); (3%Z, [4; 5]); (2%Z, [1; 4]); (4%Z, [2; 5])] /\
  corner_vertices (fun e i => (e, i)) [[3; 2]; [2; 2]] =
    [(0, 0); (0, 2); (0, 5); (0, 3); (1, 0); (1, 1); (1, 3); (1, 2)].
Proof. split; vm_compute; reflexivity. Qed.

