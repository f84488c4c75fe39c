(** Proofs about extract.bases. *)
From Coq Require Import List Arith ZArith Bool QArith Qcanon Lia.
From Verif Require Import Base BaseRadix BaseQc S_Grid S_Spline S_Value P_Grid P_Spline P_Value M_Core S_Core S_Files M_Create S_Create P_Create P_Shapes S_Mapper P_Mapper M_Bases.
Import ListNotations.
Local Open Scope list_scope.
Local Open Scope nat_scope.

Lemma set_last_nth x p d n : length p = n -> 1 <= n -> nth d (set_last x p) 0%Qc = if d =? n - 1 then x else nth d p 0%Qc.
Proof.
  intros L H. unfold set_last. destruct (exists_last (l := p)) as (q & y & ->); [intros ->; cbn in L; lia|].
  rewrite removelast_last. rewrite app_length in L. cbn [length] in L. destruct (Nat.eqb_spec d (n - 1)) as [->|N].
  - rewrite app_nth2 by lia. replace (n - 1 - length q) with 0 by lia. reflexivity.
  - destruct (Nat.lt_ge_cases d (length q)) as [G|G]; [now rewrite !app_nth1|]. rewrite !nth_overflow; auto; rewrite app_length; cbn; lia.
Qed.
Lemma set_last_length x p n : length p = n -> 1 <= n -> length (set_last x p) = n.
Proof.
  intros L H. unfold set_last. destruct (exists_last (l := p)) as (q & y & ->); [intros ->; cbn in L; lia|].
  rewrite removelast_last. rewrite app_length in *. cbn [length] in *. lia.
Qed.

Lemma basis_same axes c c' w a us : length c = length c' -> spline_basis (Spl axes c w) a us = spline_basis (Spl axes c' w) a us.
Proof. intros L. unfold spline_basis. cbn [sp_axes sp_cps sp_weights]. now rewrite L. Qed.

Lemma qsum_pick n (f : nat -> Qc) i : i < n -> qsum (map (fun a => f a * (if a =? i then 1 else 0))%Qc (seq 0 n)) = f i.
Proof.
  intros H. replace n with (i + (1 + (n - i - 1))) by lia. rewrite !seq_app, !map_app, !qsum_app. cbn [seq map qsum fold_right].
  rewrite !qsum_zero.
  - replace (0 + i) with i by lia. rewrite Nat.eqb_refl. cbn [qsum fold_right]. ring.
  - intros a Ha. apply in_seq in Ha. destruct (Nat.eqb_spec a i); [lia|ring].
  - intros a Ha. apply in_seq in Ha. destruct (Nat.eqb_spec a i); [lia|ring].
Qed.

(** A spline with one coordinate more, 1 at one control point. *)
Definition raised (s : spline) (dim r : nat) (b : spline) : Prop :=
  sp_axes b = sp_axes s /\ sp_weights b = sp_weights s /\ length (sp_cps b) = length (sp_cps s) /\
  Forall (fun p => length p = dim + 1) (sp_cps b) /\
  forall a d, a < length (sp_cps s) -> nth d (nth a (sp_cps b) []) 0%Qc =
    if d =? dim then (if a =? r then 1%Qc else 0%Qc) else nth d (nth a (sp_cps s) []) 0%Qc.

Lemma raised_values s dim r b us : sp_wf s -> raised s dim r b -> length us = length (sp_axes s) -> r < length (sp_cps s) ->
  sp_value b us dim = spline_basis s r us /\ forall d, d < dim -> sp_value b us d = sp_value s us d.
Proof.
  intros (_ & L & _) (Ea & Ew & El & _ & C) Lu Hr. rewrite fold_right_mul_prodn in L.
  assert (Lb : length (sp_cps b) = prodn (sp_res b)) by (unfold sp_res in *; now rewrite El, Ea).
  assert (B : forall a, spline_basis b a us = spline_basis s a us) by (intro a; unfold spline_basis; now rewrite Ea, Ew, El).
  split.
  - rewrite value_sum by (rewrite ?Ea; auto). rewrite El. rewrite <- (qsum_pick (length (sp_cps s)) (fun a => spline_basis s a us) r Hr).
    apply qsum_ext. intros a Ha. apply in_seq in Ha. rewrite B, C by lia. now rewrite Nat.eqb_refl.
  - intros d Hd. rewrite !value_sum by (rewrite ?Ea; auto). rewrite El. apply qsum_ext. intros a Ha. apply in_seq in Ha. rewrite B, C by lia.
    destruct (Nat.eqb_spec d dim); [lia|reflexivity].
Qed.

Lemma row_index_some n i r : row_index n i = Some r <-> r < n /\ (i = Z.of_nat r \/ i = Z.of_nat r - Z.of_nat n)%Z.
Proof.
  unfold row_index. destruct (Z.leb_spec 0 i), (Z.ltb_spec i (Z.of_nat n)), (Z.leb_spec (- Z.of_nat n) i), (Z.ltb_spec i 0); cbn [andb]; try lia;
    (split; [intros [= <-]; lia | intros (H3 & [H4|H4]); try lia; f_equal; lia]) || (split; [discriminate | lia]) || idtac.
Qed.

(** The loop of bases over the embedded spline. *)
Lemma bases_of_embedded limit dim s : sound limit dim s -> (has_kvs s = false -> dim + 1 <= limit) ->
  exists b, embed_one_more limit s = Some b /\ forall r, r < length (sp_cps s) ->
    let template := map (set_last 0%Qc) (sp_cps b) in
    length template = length (sp_cps s) /\
    raised s dim r (Spl (sp_axes b) (set_nth template r (set_last 1%Qc (nth r template []))) (sp_weights b)).
Proof.
  intros So Hb. pose proof So as (St & _ & F & _).
  unfold embed_one_more. rewrite (dims_eq _ _ _ St F), (embedded_eq limit dim s (dim + 1) So) by lia. cbv zeta.
  rewrite (embedded_make limit dim s (dim + 1) So) by (auto; lia). eexists. split; [reflexivity|]. cbn [sp_axes sp_cps sp_weights]. intros r Hr. set (template := map (set_last 0%Qc) (map _ _)).
  rewrite Forall_forall in F. assert (Lt : length template = length (sp_cps s)) by (unfold template; now rewrite !map_length).
  assert (Lz : forall p, length (zero_padded (dim + 1) (firstn (dim + 1) p)) = dim + 1).
  { intro p. apply zero_padded_length. rewrite firstn_length. lia. }
  assert (Tn : forall a, a < length (sp_cps s) -> nth a template [] = set_last 0%Qc (zero_padded (dim + 1) (firstn (dim + 1) (nth a (sp_cps s) [])))).
  { intros a Ha. unfold template. rewrite map_map. rewrite nth_indep with (d' := set_last 0%Qc (zero_padded (dim + 1) (firstn (dim + 1) []))) by (now rewrite map_length).
    now rewrite (map_nth (fun x => set_last 0%Qc (zero_padded (dim + 1) (firstn (dim + 1) x)))). }
  split; [exact Lt|]. unfold raised. cbn [sp_axes sp_cps sp_weights]. split; [reflexivity|]. split; [reflexivity|].
  assert (Ls : length (set_nth template r (set_last 1%Qc (nth r template []))) = length (sp_cps s)).
  { now rewrite set_nth_length. }
  split; [exact Ls|].
  assert (Lr : forall a, a < length (sp_cps s) -> length (nth a template []) = dim + 1).
  { intros a Ha. rewrite Tn by auto. apply set_last_length; [apply Lz|lia]. }
  split.
  - apply Forall_forall. intros p I. apply (In_nth _ _ []) in I. destruct I as (a & Ha & <-). rewrite Ls in Ha. rewrite set_nth_nth by lia.
    destruct (a =? r); [apply set_last_length; [now apply Lr|lia] | now apply Lr].
  - intros a d Ha. rewrite set_nth_nth by lia.
    assert (Zp : d <> dim -> nth d (zero_padded (dim + 1) (firstn (dim + 1) (nth a (sp_cps s) []))) 0%Qc = nth d (nth a (sp_cps s) []) 0%Qc).
    { intros _. rewrite nth_zero_padded. rewrite firstn_all2; [reflexivity|]. rewrite F by (now apply nth_In). lia. }
    assert (Lp := Lz (nth a (sp_cps s) [])).
    destruct (Nat.eqb_spec a r) as [->|N].
    + rewrite (set_last_nth _ _ _ (dim + 1)) by (auto; lia). replace (dim + 1 - 1) with dim by lia. destruct (Nat.eqb_spec d dim); [reflexivity|].
      rewrite Tn by auto. rewrite (set_last_nth _ _ _ (dim + 1)) by (auto; lia). replace (dim + 1 - 1) with dim by lia.
      destruct (Nat.eqb_spec d dim); [lia|]. now apply Zp.
    + rewrite Tn by auto. rewrite (set_last_nth _ _ _ (dim + 1)) by (auto; lia). replace (dim + 1 - 1) with dim by lia.
      destruct (Nat.eqb_spec d dim); [reflexivity|]. now apply Zp.
Qed.
