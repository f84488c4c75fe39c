(** Property theorems C28, C29: in-place edits of control points and weights. *)
From Coq Require Import List Arith ZArith Bool QArith Qcanon Lia.
From Verif Require Import Base BaseRadix BaseQc S_Grid S_Spline P_Spline S_Value M_Numpy M_Coords
  S_Coords P_Coords W_Coords.
Import ListNotations.
Local Open Scope nat_scope.

(** * C28 *)

(** The edited array is numpy's, the core holds exactly this array with the
    same weights, and so evaluates like the spline with this array assigned. *)
Theorem C28_edit_partial : forall k f a c w,
  holds c a w -> good_key (length a) k ->
  forall rows, numpy_rows (length a) k = Some rows ->
  exists a' c', setitem k f a c = Wrote a' c' /\ edited rows f a a' /\ holds c' a' w /\
    forall axes us d, core_value axes c' us d =
      sp_value (Spl axes a' (if c_rational c then Some w else None)) us d.
Proof. exact C28_edit_partial_holds. Qed.
Print Assumptions C28_edit_partial.

(** An index numpy rejects changes nothing. *)
Theorem C28_invalid : forall k f a c,
  numpy_rows (length a) k = None -> setitem k f a c = Raised a c.
Proof. exact C28_invalid_holds. Qed.
Print Assumptions C28_invalid.

(** Operators like += *)
Theorem C28_inplace : forall f a c w, holds c a w ->
  edited (seq 0 (length a)) f a (fst (inplace f a c)) /\
  holds (snd (inplace f a c)) (fst (inplace f a c)) w.
Proof. exact C28_inplace_holds. Qed.
Print Assumptions C28_inplace.

Example C28_example :
  holds two_core two_rows [1; 1 + 1]%Qc /\
  good_key 2 (KSlice (Some (-1)%Z) None None) /\
  numpy_rows 2 (KSlice (Some (-1)%Z) None None) = Some [1] /\
  good_key 2 (KSlice (Some 1%Z) (Some (-5)%Z) (Some (-1)%Z)) /\
  numpy_rows 2 (KSlice (Some 1%Z) (Some (-5)%Z) (Some (-1)%Z)) = Some [1; 0] /\
  numpy_rows 2 (KList [-1; 0; -1]%Z) = Some [1; 0; 1] /\
  numpy_rows 2 (KMask [false; true]) = Some [1] /\
  numpy_rows 2 (KInt 2%Z) = None.
Proof. exact C28_example_holds. Qed.

(** C28 fails: control_points[::-1] = values changes the array only. *)
Theorem C28_reversed_refuted : exists f a c w a' c',
  holds c a w /\ setitem (KSlice None None (Some (-1)%Z)) f a c = Wrote a' c' /\
  ~ holds c' a' w.
Proof. exact C28_reversed_refuted_holds. Qed.
Print Assumptions C28_reversed_refuted.

(** C28 fails: slices past the end, which numpy clips, leave the arrays of the
    core; every such slice does so. *)
Theorem C28_past_end_refuted : forall f a c w stop, holds c a w -> a <> [] ->
  (Z.of_nat (length a) < stop)%Z ->
  numpy_rows (length a) (KSlice None (Some stop) None) <> None /\
  setitem (KSlice None (Some stop) None) f a c = OutOfBounds.
Proof. exact C28_past_end_refuted_holds. Qed.
Print Assumptions C28_past_end_refuted.

(** C28 fails: a slice starting before the beginning with a step misses rows. *)
Theorem C28_early_start_refuted : exists f a c w a' c',
  holds c a w /\ setitem (KSlice (Some (-3)%Z) None (Some 2%Z)) f a c = Wrote a' c' /\
  ~ holds c' a' w.
Proof. exact C28_early_start_refuted_holds. Qed.
Print Assumptions C28_early_start_refuted.

(** C28 fails: an empty list of rows is an error. *)
Theorem C28_empty_list_refuted : forall f a c,
  numpy_rows (length a) (KList []) = Some [] /\
  setitem (KList []) f a c = Raised (numpy_set [] f a) c.
Proof. exact C28_empty_list_refuted_holds. Qed.
Print Assumptions C28_empty_list_refuted.

(** * C29 *)

(** Editing weights: only these weights change. *)
Theorem C29_weights : forall k f a w c, c_rational c = true -> holds c a w ->
  (forall i x, x <> 0%Qc -> f i x <> 0%Qc) ->
  forall rows, numpy_rows (length w) k = Some rows ->
  exists w' c', setitem_w k f w c = Some (w', c') /\ edited rows f w w' /\ holds c' a w'.
Proof. exact C29_weights_holds. Qed.
Print Assumptions C29_weights.

(** A single weight through the pointer. *)
Theorem C29_set_row : forall c a w k v, c_rational c = true -> holds c a w -> k < length a ->
  v <> 0%Qc -> holds (w_put c k v) a (set_nth w k v).
Proof. exact C29_set_row_holds. Qed.
Print Assumptions C29_set_row.

(** Whole histories of edits of control points and weights act like numpy on
    two independent arrays. *)
Theorem C29_history : forall es a w c, c_rational c = true -> holds c a w ->
  Forall (good_edit (length a)) es ->
  forall a' w', pure_edits es a w = Some (a', w') ->
  exists c', edits es a w c = Some (a', w', c') /\ holds c' a' w'.
Proof. exact C29_history_holds. Qed.
Print Assumptions C29_history.

Example C29_example :
  let es := [EditW (KInt (-1)) (fun _ x => x + x)%Qc; EditC (KMask [true; false]) (fun _ r => r);
             InPlace (fun _ r => map (fun x => x + 1)%Qc r);
             EditW (KSlice None None (Some (-1)%Z)) (fun _ x => x * x)%Qc] in
  holds two_core two_rows [1; 1 + 1]%Qc /\ Forall (good_edit 2) es /\
  pure_edits es two_rows [1; 1 + 1]%Qc <> None.
Proof. exact C29_example_holds. Qed.