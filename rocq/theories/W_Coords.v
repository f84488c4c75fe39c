(** Witnesses and assembly of the theorems of T_Coords. *)
From Coq Require Import List Arith ZArith Bool QArith Qcanon Lia.
From Verif Require Import Base BaseRadix BaseQc S_Grid S_Spline P_Spline S_Value M_Numpy M_Coords
  S_Coords P_Coords.
Import ListNotations.
Local Open Scope nat_scope.

Lemma C28_edit_partial_holds : forall k f a c w,
  holds c a w -> good_key (length a) k ->
  forall rows, numpy_rows (length a) k = Some rows ->
  exists a' c', setitem k f a c = Wrote a' c' /\ edited rows f a a' /\ holds c' a' w /\
    forall axes us d, core_value axes c' us d =
      sp_value (Spl axes a' (if c_rational c then Some w else None)) us d.
Proof.
  intros k f a c w H G rows E. apply holds_stores in H.
  destruct (setitem_good k f a c w H G rows E) as [c' [E' [R S']]].
  exists (numpy_set rows f a), c'. split; [exact E'|]. split; [apply numpy_set_edited|].
  split; [now apply holds_stores|]. intros. rewrite (core_value_spec _ _ _ _ _ _ S'), R. reflexivity.
Qed.

Lemma C28_invalid_holds : forall k f a c,
  numpy_rows (length a) k = None -> setitem k f a c = Raised a c.
Proof. intros k f a c E. unfold setitem. rewrite E. reflexivity. Qed.

Lemma C28_inplace_holds : forall f a c w, holds c a w ->
  edited (seq 0 (length a)) f a (fst (inplace f a c)) /\
  holds (snd (inplace f a c)) (fst (inplace f a c)) w.
Proof.
  intros f a c w H. apply holds_stores in H. destruct (inplace_good f a c w H) as [_ [E S']].
  split; [|now apply holds_stores]. rewrite E. apply numpy_set_edited.
Qed.

Definition two_rows : list (list Qc) := [[0; 1]; [1; 1 + 1]]%Qc.

Definition two_core : core := Core true [[0; 1]; [1 + 1; (1 + 1) * (1 + 1)]]%Qc [1; 1 + 1]%Qc.

Lemma two_holds : holds two_core two_rows [1; 1 + 1]%Qc.
Proof.
  apply holds_stores. refine (conj eq_refl (conj _ _)).
  - intros [|[|k]] Hk; [| |cbn in Hk; lia]; cbn;
      repeat (f_equal; [first [ring|idtac]|]); reflexivity.
  - intros _. refine (conj eq_refl (conj eq_refl _)).
    constructor; [discriminate|]. constructor; [discriminate|constructor].
Qed.

Lemma C28_example_holds :
  holds two_core two_rows [1; 1 + 1]%Qc /\
  good_key 2 (KSlice (Some (-1)%Z) None None) /\
  numpy_rows 2 (KSlice (Some (-1)%Z) None None) = Some [1] /\
  good_key 2 (KSlice (Some 1%Z) (Some (-5)%Z) (Some (-1)%Z)) /\
  numpy_rows 2 (KSlice (Some 1%Z) (Some (-5)%Z) (Some (-1)%Z)) = Some [1; 0] /\
  numpy_rows 2 (KList [-1; 0; -1]%Z) = Some [1; 0; 1] /\
  numpy_rows 2 (KMask [false; true]) = Some [1] /\
  numpy_rows 2 (KInt 2%Z) = None.
Proof.
  split; [apply two_holds|]. split; [left; cbn; lia|]. split; [reflexivity|].
  split; [right; cbn; lia|]. repeat split.
Qed.

Lemma C28_reversed_refuted_holds : exists f a c w a' c',
  holds c a w /\ setitem (KSlice None None (Some (-1)%Z)) f a c = Wrote a' c' /\
  ~ holds c' a' w.
Proof.
  exists (fun _ _ => [0%Qc]), [[1%Qc]], (Core false [[1%Qc]] []), [], [[0%Qc]], (Core false [[1%Qc]] []).
  split; [split; [reflexivity|]; split; [reflexivity|discriminate]|].
  split; [reflexivity|]. intros [H _]. discriminate.
Qed.

Lemma C28_past_end_refuted_holds : forall f a c w stop, holds c a w -> a <> [] ->
  (Z.of_nat (length a) < stop)%Z ->
  numpy_rows (length a) (KSlice None (Some stop) None) <> None /\
  setitem (KSlice None (Some stop) None) f a c = OutOfBounds.
Proof.
  intros f a c w stop [_ [L _]] Ne Hs. unfold setitem. cbn [numpy_rows].
  assert (E : exists rows, slice_positions (length a) None (Some stop) None = Some rows)
    by (eexists; reflexivity).
  destruct E as [rows E]. rewrite E. split; [discriminate|].
  rewrite (sync_rows_outside _ c _ (Z.of_nat (length a))); [reflexivity| |rewrite L; lia].
  unfold slice_ids, flip. destruct (Z.ltb_spec stop 0); [lia|].
  apply arange_In; [lia|]. exists (Z.of_nat (length a)). cbn. lia.
Qed.

Lemma C28_early_start_refuted_holds : exists f a c w a' c',
  holds c a w /\ setitem (KSlice (Some (-3)%Z) None (Some 2%Z)) f a c = Wrote a' c' /\
  ~ holds c' a' w.
Proof.
  exists (fun _ _ => [0%Qc]), [[1]; [1]]%Qc, (Core false [[1]; [1]]%Qc []), [], [[0]; [1]]%Qc,
    (Core false [[1]; [1]]%Qc []).
  split; [split; [reflexivity|]; split; [reflexivity|discriminate]|].
  split; [reflexivity|]. intros [H _]. discriminate.
Qed.

Lemma C28_empty_list_refuted_holds : forall f a c,
  numpy_rows (length a) (KList []) = Some [] /\
  setitem (KList []) f a c = Raised (numpy_set [] f a) c.
Proof. intros. split; reflexivity. Qed.

Lemma C29_weights_holds : forall k f a w c, c_rational c = true -> holds c a w ->
  (forall i x, x <> 0%Qc -> f i x <> 0%Qc) ->
  forall rows, numpy_rows (length w) k = Some rows ->
  exists w' c', setitem_w k f w c = Some (w', c') /\ edited rows f w w' /\ holds c' a w'.
Proof.
  intros k f a w c R H Hf rows E. apply holds_stores in H.
  destruct (setitem_w_good k f a w c R H Hf rows E) as [c' [E' [_ S']]].
  exists (numpy_set_w rows f w), c'. split; [exact E'|]. split; [apply numpy_set_w_edited|].
  now apply holds_stores.
Qed.

Lemma C29_set_row_holds : forall c a w k v, c_rational c = true -> holds c a w -> k < length a ->
  v <> 0%Qc -> holds (w_put c k v) a (set_nth w k v).
Proof.
  intros c a w k v R H Hk Hv. apply holds_stores in H. apply holds_stores.
  apply (w_put_spec c a w k v R H Hk Hv).
Qed.

Lemma C29_history_holds : forall es a w c, c_rational c = true -> holds c a w ->
  Forall (good_edit (length a)) es ->
  forall a' w', pure_edits es a w = Some (a', w') ->
  exists c', edits es a w c = Some (a', w', c') /\ holds c' a' w'.
Proof.
  intros es a w c R H G a' w' E. apply holds_stores in H.
  destruct (edits_good es a w c R H G a' w' E) as [c' [E' [S' _]]].
  exists c'. split; [exact E'|now apply holds_stores].
Qed.

Lemma C29_example_holds :
  let es := [EditW (KInt (-1)) (fun _ x => x + x)%Qc; EditC (KMask [true; false]) (fun _ r => r);
             InPlace (fun _ r => map (fun x => x + 1)%Qc r);
             EditW (KSlice None None (Some (-1)%Z)) (fun _ x => x * x)%Qc] in
  holds two_core two_rows [1; 1 + 1]%Qc /\ Forall (good_edit 2) es /\
  pure_edits es two_rows [1; 1 + 1]%Qc <> None.
Proof.
  cbn zeta. split; [apply two_holds|]. split; [|discriminate].
  constructor.
  { intros i x Hx E. apply Hx. replace x with ((x + x) / (1 + 1))%Qc by (field; discriminate).
    rewrite E. field. discriminate. }
  constructor; [exact I|]. constructor; [exact I|]. constructor; [|constructor].
  intros i x Hx E. apply Qcmult_integral in E. tauto.
Qed.

