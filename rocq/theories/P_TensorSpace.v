(** Tensor products of spline spaces: determinants stay in them, and a grid of
    well placed points determines their elements. *)
From Coq Require Import List Arith Lia Bool QArith Qcanon Sorted.
From Verif Require Import Base BaseRadix BaseQc S_Grid S_Spline S_Value S_Exact S_Deriv S_Integrate P_Spline P_FitSurf P_Exact P_Zeros P_SplineSpace P_AxisClass P_Placed.
Import ListNotations.
Local Open Scope list_scope.
Local Open Scope nat_scope.

Fixpoint tclass {X} (us : X -> list Qc) (r : X -> nat -> nat) (dg : X -> nat) (l : list X) (F : list Qc -> Qc) : Prop :=
  match l with
  | [] => True
  | x :: l => (forall u, length u = length l -> inclass (zk (us x)) (length (us x) - 1) (r x) (dg x) (fun t => F (t :: u))) /\
              forall t, tclass us r dg l (fun u => F (t :: u))
  end.
Section Closure.
Context {X : Type} (us : X -> list Qc) (r : X -> nat -> nat).
Lemma tclass_ext dg l : forall F G, (forall u, F u = G u) -> tclass us r dg l F -> tclass us r dg l G.
Proof.
  induction l as [|x l IH]; intros F G E H; [exact I|]. destruct H as [A B]. split.
  - intros u L. eapply inclass_ext; [|exact (A u L)]. intros t. apply E.
  - intros t. apply (IH (fun u => F (t :: u))); auto.
Qed.
Lemma tclass_const dg l a : tclass us r dg l (fun _ => a).
Proof. induction l as [|x l IH]; [exact I|]. split; [intros u _; exact (inclass_const _ _ _ _ a)|auto]. Qed.
Lemma tclass_add dg l : forall F G, tclass us r dg l F -> tclass us r dg l G -> tclass us r dg l (fun u => F u + G u)%Qc.
Proof. induction l as [|x l IH]; intros F G H K; [exact I|]. destruct H as [A B], K as [C D]. split; [intros u L; apply inclass_add; auto|intros t; now apply IH]. Qed.
Lemma tclass_scale dg l a : forall F, tclass us r dg l F -> tclass us r dg l (fun u => a * F u)%Qc.
Proof. induction l as [|x l IH]; intros F H; [exact I|]. destruct H as [A B]. split; [intros u L; apply inclass_scale; auto|intros t; now apply IH]. Qed.
Lemma tclass_sum {A} dg l (F : A -> list Qc -> Qc) li : (forall i, In i li -> tclass us r dg l (F i)) -> tclass us r dg l (fun u => qsum (map (fun i => F i u) li)).
Proof.
  induction li as [|i li IH]; intros H; [exact (tclass_const dg l 0%Qc)|]. cbn [map qsum]. apply tclass_add; [apply H; now left|]. apply IH. intros j Hj. apply H. now right.
Qed.
Lemma tclass_mul dg dg' l : forall F G, tclass us r dg l F -> tclass us r dg' l G -> tclass us r (fun x => dg x + dg' x) l (fun u => F u * G u)%Qc.
Proof. induction l as [|x l IH]; intros F G H K; [exact I|]. destruct H as [A B], K as [C D]. split; [intros u L; apply inclass_mul; auto|intros t; now apply IH]. Qed.
Lemma tclass_degree dg dg' l : (forall x, In x l -> dg x <= dg' x) -> forall F, tclass us r dg l F -> tclass us r dg' l F.
Proof.
  induction l as [|x l IH]; intros H F K; [exact I|]. destruct K as [A B]. split.
  - intros u L. apply (inclass_degree _ _ _ (dg x)); [apply H; now left|auto].
  - intros t. apply IH; auto. intros y Hy. apply H. now right.
Qed.
Lemma tclass_det l n : forall (dg : nat -> X -> nat) (a : nat -> nat -> list Qc -> Qc), (forall i j, i < n -> j < n -> tclass us r (dg j) l (a i j)) ->
  tclass us r (fun x => list_sum (map (fun j => dg j x) (seq 0 n))) l (fun u => det n (fun i j => a i j u)).
Proof.
  induction n as [|n IH]; intros dg a H; [exact (tclass_const _ l 1%Qc)|]. cbn [det]. apply tclass_sum. intros j Hj. apply in_seq in Hj.
  apply (tclass_degree (fun x => dg j x + list_sum (map (fun k => dg (if k <? j then k else S k) x) (seq 0 n)))).
  { intros x _. rewrite (skipped_sum (fun j => dg j x)) by lia. lia. }
  apply tclass_mul.
  - apply tclass_scale. apply H; lia.
  - apply (IH (fun k => dg (if k <? j then k else S k)) (fun i k => a (S i) (if k <? j then k else S k))). intros i k Hi Hk. apply H; [lia|]. destruct (Nat.ltb_spec k j); lia.
Qed.
End Closure.
Lemma tclass_transfer {X Y} (us : X -> list Qc) r dg (us' : Y -> list Qc) r' dg' l l' :
  Forall2 (fun x y => us x = us' y /\ dg x <= dg' y /\ forall c, 0 < c -> c < length (us x) - 1 -> r' y c <= r x c) l l' ->
  forall F, tclass us r dg l F -> tclass us' r' dg' l' F.
Proof.
  induction 1 as [|x y l l' (E & D & R) H IH]; intros F K; [exact I|]. destruct K as [A B]. split.
  - intros u L. rewrite <- E. eapply inclass_smooth; [exact R|]. apply (inclass_degree _ _ _ (dg x)); auto. apply A. rewrite L. symmetry. clear - H. induction H; cbn; auto.
  - intros t. apply IH, B.
Qed.

(** One axis: knots, multiplicities and points. *)
Record dir := Dir { d_a : paxis; d_us : list Qc; d_ms : list nat; d_g : list Qc }.
Definition dir_form (d : dir) : Prop := axis_form (d_a d) (d_us d) (d_ms d).
Definition functions (b : nat -> bool) (off : nat) (axes : list paxis) (u : list Qc) : list (nat * (nat -> Qc)) :=
  map (fun kau => let '(k, (a, u)) := kau in (ax_n a, if b k then ax_dfun a u else ax_fun a u)) (combine (seq off (length axes)) (combine axes u)).
Lemma functions_value axes : forall off u, functions (fun _ => false) off axes u = sp_basis axes u.
Proof.
  induction axes as [|a axes IH]; intros off u; [reflexivity|]. destruct u as [|x u]; [reflexivity|]. unfold functions, sp_basis in *. cbn [length seq combine map fst snd]. f_equal. apply IH.
Qed.
Lemma tensor_class b e l : Forall dir_form l -> e <= 1 -> (e = 1 -> forall k, b k = false) -> forall off c,
  tclass (fun kd : nat * dir => d_us (snd kd)) (fun kd c => ax_degree (d_a (snd kd)) + e - mk (d_ms (snd kd)) c)
    (fun kd => if b (fst kd) then ax_degree (d_a (snd kd)) - 1 else ax_degree (d_a (snd kd))) (combine (seq off (length l)) l)
    (fun u => tensor (functions b off (map d_a l) u) c).
Proof.
  intros Fl He Hb. induction Fl as [|d l Fd Fl IH]; intros off c; [exact I|]. cbn [length seq combine map]. split.
  - intros u _. cbn [fst snd]. unfold functions. cbn [length seq combine map tensor].
    apply inclass_sum. intros i Hi. apply in_seq in Hi. cbn [fst snd].
    set (rest := tensor _ _). apply (inclass_ext _ _ _ _ (fun t => rest * (if b off then ax_dfun (d_a d) t else ax_fun (d_a d) t) i)%Qc); [intros t; ring|].
    apply inclass_scale. destruct (axis_inclass _ _ _ i Fd ltac:(lia)) as [A B]. destruct (b off) eqn:Eb.
    + assert (e = 0) as -> by (destruct e as [|[|]]; auto; [specialize (Hb eq_refl off); congruence|lia]). eapply inclass_smooth; [|exact B]. intros k _ _. cbv beta. lia.
    + eapply inclass_smooth; [|exact A]. intros k _ _. cbv beta. lia.
  - intros t. unfold functions. cbn [length seq combine map tensor]. apply tclass_sum. intros i _. apply tclass_scale. apply IH.
Qed.

(** * Points *)
Definition dir_ok (d : dir) : Prop :=
  dir_form d /\ Forall (fun k => k <= ax_degree (d_a d) + 1) (d_ms d) /\ length (d_g d) = ax_n (d_a d) /\ placed (d_us d) (d_ms d) (ax_degree (d_a d)) (fun i => nth i (d_g d) 0%Qc).
Definition in_box (l : list dir) (u : list Qc) : Prop := Forall2 (fun d x => (zk (d_us d) 0 <= x)%Qc /\ (x <= zk (d_us d) (length (d_us d) - 1))%Qc) l u.
Definition on_grid (l : list dir) (u : list Qc) : Prop := Forall2 (fun d x => In x (d_g d)) l u.
Lemma tensor_vanish l : Forall dir_ok l -> forall F, tclass d_us (fun d c => ax_degree (d_a d) + 1 - mk (d_ms d) c) (fun d => ax_degree (d_a d)) l F ->
  (forall u, on_grid l u -> F u = 0%Qc) -> forall u, in_box l u -> F u = 0%Qc.
Proof.
  induction 1 as [|d l (W & M & Lg & Pl) H IH]; intros F K V u B; [inversion B; subst; apply V; constructor|].
  destruct K as [A C]. inversion B as [|? x ? u' [B1 B2] B']; subst.
  apply (class_vanish (d_a d) (d_us d) (d_ms d) W M _ Pl (fun t => F (t :: u'))); auto.
  - apply A. symmetry. clear - B'. induction B'; cbn; auto.
  - intros i Hi. apply (IH (fun u => F (nth i (d_g d) 0%Qc :: u))); auto. intros v Hv. apply V. constructor; auto. apply nth_In. now rewrite Lg.
Qed.
Lemma tensor_unisolvent l : Forall dir_ok l -> forall c, (forall u, on_grid l u -> tensor (sp_basis (map d_a l) u) c = 0%Qc) ->
  forall ix, valid_digits (map ax_n (map d_a l)) ix -> c ix = 0%Qc.
Proof.
  induction 1 as [|d l (W & M & Lg & Pl) H IH]; intros c V ix Hx.
  - inversion Hx; subst. exact (V [] (Forall2_nil _)).
  - inversion Hx as [|? i ? ix' Hi Hx']; subst. apply (IH (fun ix => c (i :: ix))); auto. intros u Hu.
    apply (unisolvent (d_a d) (d_us d) (d_ms d) W M _ Pl (fun i => tensor (sp_basis (map d_a l) u) (fun ix => c (i :: ix)))); auto.
    intros j Hj. transitivity (tensor (sp_basis (map d_a (d :: l)) (nth j (d_g d) 0%Qc :: u)) c); [|apply V].
    + unfold sp_basis. cbn [map combine fst snd tensor]. apply qsum_ext. intros k _. ring.
    + constructor; auto. apply nth_In. now rewrite Lg.
Qed.
