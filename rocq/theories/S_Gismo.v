(** Specification of gismo files. *)
From Coq Require Import List Arith ZArith QArith Qcanon Sorting.Sorted.
From Verif Require Import Base BaseQc S_Value S_Interfaces.
Import ListNotations.
Local Open Scope list_scope.
Local Open Scope nat_scope.

(** Interface table of [n] patches: negative entries are boundary ids. *)
Definition patch_table (n faces : nat) (t : list Z) : Prop :=
  length t = n * faces /\ symmetric_table t.

(** [t] is [s] with knot vectors. *)
Definition knots_of (s t : spline) : Prop :=
  sp_cps t = sp_cps s /\ sp_weights t = sp_weights s /\
  Forall2 (fun a b => match a with
                      | KnotAxis _ _ => b = a
                      | BezierAxis p => b = KnotAxis p (repeat 0%Qc (p + 1) ++ repeat 1%Qc (p + 1))
                      end) (sp_axes s) (sp_axes t).

(** The selected fields in increasing order: all without a mask. *)
Definition selected (n : nat) (mask : option (list Z)) (ids : list nat) : Prop :=
  StronglySorted lt ids /\
  forall k, In k ids <-> k < n /\ match mask with None => True | Some m => In (Z.of_nat k) m end.
(** A mask is empty or names a missing field. *)
Definition bad_mask (n : nat) (mask : option (list Z)) : Prop :=
  match mask with None => False | Some m => m = [] \/ exists z, In z m /\ (z < 0 \/ Z.of_nat n <= z)%Z end.

(** Field [k] is not zero on patch [i]. *)
Definition active (fields : list (list bool)) (k i : nat) : Prop := nth i (nth k fields []) false = true.
(** Rows (patch, position of the field among the selected ones), field by field. *)
Definition row_before (a b : nat * nat) : Prop := snd a < snd b \/ (snd a = snd b /\ fst a < fst b).
Definition support_rows (ids : list nat) (fields : list (list bool)) (rows : list (nat * nat)) : Prop :=
  StronglySorted row_before rows /\
  forall i j, In (i, j) rows <-> j < length ids /\ active fields (nth j ids 0) i.

(** Number of rows of patch [i] among the first [r] rows. *)
Definition earlier (rows : list (nat * nat)) (r i : nat) : nat :=
  count_occ Nat.eq_dec (map fst (firstn r rows)) i.

(** Every patch up to the last one that has a field has one. *)
Definition no_gap (fields : list (list bool)) (ids : list nat) : Prop :=
  forall i k, In k ids -> active fields k i -> forall i', i' <= i -> exists k', In k' ids /\ active fields k' i'.
