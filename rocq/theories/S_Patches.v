(** Specification of multipatch checks, numbering and caches. *)
From Coq Require Import String List Arith ZArith QArith Qcanon Sorted.
From Verif Require Import Base BaseQc S_Grid M_Patches M_Boundaries S_Boundaries.
Import ListNotations.
Local Open Scope nat_scope.

(** * Checks *)

(** The parametric dimension a request asks for. *)
Definition wants (r : request) (n : nat) : Prop :=
  (r_para_dim r = n /\ n <> 0) \/
  (r_degrees r <> [] /\ length (r_degrees r) = n) \/ (r_cmr r <> [] /\ length (r_cmr r) = n).
(** The arguments agree on it.  Resolutions alone are refused. *)
Definition consistent (r : request) : Prop :=
  (forall n m, wants r n -> wants r m -> n = m) /\
  (r_cmr r <> [] -> r_para_dim r <> 0 \/ r_degrees r <> []).

(** Patch [p] differs from the request in property [k].  Degrees and resolutions
    are compared if the parametric dimension is the same. *)
Definition differs (r : request) (k : key) (p : patch) : Prop :=
  p_null p = false /\
  match k with
  | KName => r_name r <> ""%string /\ p_name p <> r_name r
  | KDim => r_dim r <> 0 /\ p_dim p <> r_dim r
  | KParaDim => exists n, wants r n /\ p_para_dim p <> n
  | KDegrees => r_degrees r <> [] /\ p_para_dim p = length (r_degrees r) /\ p_degrees p <> r_degrees r
  | KCmr => r_cmr r <> [] /\ p_para_dim p = length (r_cmr r) /\ p_cmr p <> r_cmr r
  end.

(** Field patch [q] does not fit patch [p]. *)
Definition misfits (f : flags) (k : key) (p q : patch) : Prop :=
  let both := p_null p = false /\ p_null q = false in
  let same_dim := f_dims f = true -> p_para_dim p = p_para_dim q in
  match k with
  | KParaDim => f_dims f = true /\ p_para_dim p <> p_para_dim q
  | KDim => f_dims f = true /\ p_dim q <> f_field_dim f
  | KName => both /\ f_name f = true /\ p_name p <> p_name q
  | KDegrees => both /\ same_dim /\ f_degrees f = true /\ p_degrees p <> p_degrees q
  | KCmr => both /\ same_dim /\ f_cmr f = true /\ p_cmr p <> p_cmr q
  end.

(** The verdict reports exactly the items 0 .. total-1 that are [bad]. *)
Definition reports (v : verdict) (total : nat) (bad : key -> nat -> Prop) : Prop :=
  (v = Matches /\ forall k i, i < total -> ~ bad k i) \/
  (exists rep, v = Mismatches rep /\ (exists k i, i < total /\ bad k i) /\
     forall k, NoDup (rep k) /\ forall i, In i (rep k) <-> i < total /\ bad k i).

(** Patch [i] has other dimensions than the first patch. *)
Definition odd_dims (ps : list patch) (k : key) (i : nat) : Prop :=
  let p0 := nth 0 ps no_patch in let p := nth i ps no_patch in
  p_null p = false /\
  match k with
  | KParaDim => p_para_dim p <> p_para_dim p0
  | KDim => p_dim p <> p_dim p0
  | _ => False
  end.

(** Fields of the right form: one entry per patch, and the entries have one
    parametric and physical dimension. *)
Definition uniform (para_dim dim : nat) (field : list (option patch)) : Prop :=
  field <> [] /\ exists a b, 0 < a /\ 0 < b /\
    forall q, In q (field_patches para_dim dim field) -> p_para_dim q = a /\ p_dim q = b.
(** Field [i] does not fit the patches. *)
Definition misfit_field (ps : list patch) (f : flags) (field : list (option patch)) : Prop :=
  length field <> length ps \/
  exists k j, j < length ps /\
    misfits f k (nth j ps no_patch)
      (nth j (field_patches (p_para_dim (nth 0 ps no_patch)) (f_field_dim f) field) no_patch).

(** * Numbering *)
Definition prefix_sum (sizes : list nat) (i : nat) : nat := fold_right Nat.add 0 (firstn i sizes).

(** Point [q] of the regular grid of a patch with these bounds. *)
Definition sample_point (pd : nat) (res : Z) (bounds : list Qc) (q : nat) : list Qc :=
  map (sample_coordinate (fun k => nth k bounds 0%Qc) (fun k => nth (k + pd) bounds 0%Qc)
         (repeat (Z.to_nat res) pd) q) (seq 0 pd).

(** * Caches *)
Section Cache.
Variables P B O : Type.
Variable sub_of : P -> B.
Variable conn_of : P -> list Z.
Variable boundary_of : P -> list nat -> B.
Variable faces_of : P -> nat.
Variable orient_of : P -> nat * nat * nat * nat -> Qc -> O.

(** What the user assigned: patches, and the interfaces if they were assigned,
    computed or edited since. *)
Record given_state := Given { gs_patches : P; gs_table : option (list Z) }.
Definition table_of (g : given_state) : list Z :=
  match gs_table g with Some t => t | None => conn_of (gs_patches g) end.
Definition gstep (g : given_state) (o : mop P) : given_state :=
  match o with
  | SetPatches _ p => Given p None
  | SetInterfaces _ t => Given (gs_patches g) (Some t)
  | EditInterfaces _ f => Given (gs_patches g) (Some (f (table_of g)))
  | Recompute _ => Given (gs_patches g) None
  | _ => g
  end.
Definition grun (g : given_state) (ops : list (mop P)) : given_state := fold_left gstep ops g.

(** The boundary faces of a table, all or those of one id, in ascending order. *)
Definition right_ids (t : list Z) (bid : Z) (l : list nat) : Prop :=
  StronglySorted lt l /\ forall i, In i l <->
    i < length t /\ (nth i t 0 < 0)%Z /\ ((0 <= bid)%Z -> nth i t 0%Z = (- bid)%Z).

(** One line for every interface, at its first face: both faces and how they meet. *)
Definition right_lines (p : P) (t : list Z) (tol : Qc) (o : list (nat * nat * nat * nat * O)) : Prop :=
  exists l, StronglySorted lt l /\
    (forall i, In i l <-> i < length t /\ (Z.of_nat i < nth i t 0)%Z) /\
    Forall2 (fun i e =>
      exists p1 f1 p2 f2, e = (p1, f1, p2, f2, orient_of p (p1, f1, p2, f2) tol) /\
        f1 < faces_of p /\ f2 < faces_of p /\
        i = p1 * faces_of p + f1 /\ nth i t 0%Z = Z.of_nat (p2 * faces_of p + f2)) l o.

(** The answer a multipatch with these patches and interfaces should give. *)
Definition right_answer (g : given_state) (o : mop P) (a : answer B O) : Prop :=
  match o with
  | Recompute _ => a = Table _ _ (conn_of (gs_patches g))
  | ReadInterfaces _ => a = Table _ _ (table_of g)
  | ReadSub _ => a = Patches _ _ (sub_of (gs_patches g))
  | ReadIds _ bid => exists l, a = Ids _ _ l /\ right_ids (table_of g) bid l
  | ReadBoundary _ bid =>
      exists l, a = Patches _ _ (boundary_of (gs_patches g) l) /\ right_ids (table_of g) bid l
  | ReadOrientations _ tol => 
      exists o, a = Orientations _ _ o /\ right_lines (gs_patches g) (table_of g) tol o
  | _ => a = Nothing _ _
  end.
(** Operations without a cache of their own. *)
Definition plain (o : mop P) : Prop :=
  match o with
  | ReadSub _ | ReadOrientations _ _ => False
  | ReadIds _ bid | ReadBoundary _ bid => (0 < bid)%Z
  | _ => True
  end.
(** Reads, and edits of the ids of boundary faces; one tolerance. *)
Definition gentle (tol : Qc) (o : mop P) : Prop :=
  match o with
  | SetPatches _ _ | SetInterfaces _ _ | Recompute _ => False
  | EditInterfaces _ f => forall t, boundary_edit t (f t)
  | ReadIds _ bid | ReadBoundary _ bid => bid <> 0%Z
  | ReadOrientations _ tol' => tol' = tol
  | _ => True
  end.
(** Operations after which orientations are computed again. *)
Definition renews (o : mop P) : Prop :=
  match o with SetPatches _ _ | SetInterfaces _ _ | Recompute _ => True | _ => False end.
End Cache.
