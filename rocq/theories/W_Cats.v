(** Witnesses and assembly of the theorems of T_Cats. *)
From Coq Require Import String List Arith ZArith Bool QArith Qcanon Lia.
From Verif Require Import Base BaseQc S_Value M_Core S_Core P_Core W_Core M_Files S_Files P_Files W_Files M_Mfem M_Gismo M_Cats S_Cats P_Cats.
Import ListNotations.
Local Open Scope string_scope.
Local Open Scope list_scope.
Local Open Scope nat_scope.

Lemma C91_roundtrip_partial_holds : forall limit rational l, Forall own_class l -> Forall (fun o => storable limit (o_core o)) l ->
  exists f l', export_cats rational l = Some f /\ load_cats limit (reparse f) = Some l' /\ Forall own_class l' /\
  Forall2 (fun o o' => kept rational (o_core o) (o_core o')) l l'.
Proof. exact cats_kept. Qed.

Lemma C91_same_map_holds : forall rational s t, kept rational s t -> sp_wf s -> same_map s t.
Proof. exact kept_map. Qed.

Lemma C91_counts_holds : forall limit f l n, load_cats limit f = Some l -> prefix "SplineList" (tag f) = true -> states f "NumberOfSplines" n ->
  n = Z.of_nat (length l) /\ length l = length (children f).
Proof. exact load_counts. Qed.

Lemma C91_closed_holds : forall limit f x, prefix "SplineList" (tag f) = true -> In x (children f) -> closed x -> load_cats limit f = None.
Proof. exact load_refuses. Qed.

Lemma C91_variables_holds : forall limit dim vars rows degs kvs ws names f, patch_file dim vars rows degs kvs ws names f -> names <> [] -> 0 < dim -> dim <= vars ->
  Forall (fun r => length r = vars) rows -> consistent degs (Some kvs) (map (firstn dim) rows) ws -> supported limit degs (Some kvs) (map (firstn dim) rows) ->
  exists o, load_cats limit f = Some [o] /\ own_class o /\ has_properties (o_core o) degs (Some kvs) (map (firstn dim) rows) ws.
Proof. exact load_variables. Qed.

Lemma C91_example_holds : Forall own_class two /\ Forall (fun o => storable 3 (o_core o)) two /\
  map (fun f => (tag f, length (children f), length (children (reparse f)))) (match export_cats false two with Some f => [f] | None => [] end) = [("SplineList", 3, 2)] /\
  map (map (fun o => (o_cls o, core_degrees (o_core o)))) (match load_cats 3 (match export_cats true two with Some f => reparse f | None => Comment end) with Some l => [l] | None => [] end) =
    [map (fun o => (Some CNurbs, core_degrees (o_core o))) two].
Proof. destruct two_stored as [A B]. repeat split; auto. Qed.

Definition heated (more : list (string * list tok)) : xml := Elem "SplineList" [("NumberOfSplines", [TInt 1])] [] [Elem "SplineEntry"
  ([("splDim", [TInt 1]); ("spaceDim", [TInt 2]); ("numOfCntrlPntVars", [TInt 3]); ("numCntrlPnts", [TInt 2])] ++ more) []
  [Elem "cntrlPntVarNames" [] [TName "x"; TName "y"; TName "T"] []; Elem "cntrlPntVars" [] (map TReal [0; 0; qc 20 1; 1; 1; qc 30 1]%Qc) [];
   Elem "deg" [] [TInt 1] []; Elem "kntVecs" [] [] [Elem "kntVec" [] (map TReal [0; 0; 1; 1]%Qc) []]]].

Lemma C91_variables_example_holds : patch_file 2 3 [[0; 0; qc 20 1]; [1; 1; qc 30 1]]%Qc [1%Z] [[0; 0; 1; 1]]%Qc None ["x"; "y"; "T"] (heated []) /\
  consistent [1%Z] (Some [[0; 0; 1; 1]]%Qc) [[0; 0]; [1; 1]]%Qc None /\ supported 3 [1%Z] (Some [[0; 0; 1; 1]]%Qc) [[0; 0]; [1; 1]]%Qc.
Proof.
  split.
  - split; [reflexivity|]. split; [now exists [], []|]. split; [intros v [H|[]]; discriminate|]. do 2 eexists. split; [reflexivity|].
    split.
    + repeat split.
      * eexists [_], [_; _]. split; [reflexivity|]. intros v [H|[H|[]]]; discriminate.
      * eexists [], [_; _; _]. split; [reflexivity|]. intros v [H|[H|[H|[]]]]; discriminate.
      * eexists [_; _], [_]. split; [reflexivity|]. intros v [H|[]]; discriminate.
      * eexists [_; _; _], []. split; [reflexivity|]. intros v [].
    + intros v [H|[H|[H|[H|[]]]]]; discriminate.
  - split.
    + split; [discriminate|]. split; [constructor; [|constructor]|].
      * split; [lia|]. split; [|cbn; lia]. intros i j H1 H2. cbn [length] in H2.
        do 4 (destruct j as [|j]; [do 4 (destruct i as [|i]; [first [lia | cbn; discriminate]|]); lia|]). lia.
      * split; [exists 2; split; [lia|repeat constructor]|]. split; reflexivity.
    + split; [cbn; lia|]. repeat constructor; discriminate.
Qed.

Lemma C91_closed_example_holds : exists x, prefix "SplineList" (tag (heated [("closed", [TInt 1])])) = true /\ In x (children (heated [("closed", [TInt 1])])) /\ closed x /\
  states (heated []) "NumberOfSplines" 1 /\ someb (load_cats 3 (heated [])) = true.
Proof.
  eexists. split; [reflexivity|]. split; [left; reflexivity|]. split.
  - eexists [_; _; _; _], [], [], []. split; [reflexivity|]. split; [intros v []|constructor].
  - split; [|reflexivity]. exists [], []. split; [reflexivity|]. intros v [].
Qed.

Lemma C91_generic_refuted_holds : exists o, o_cls o = None /\ storable 3 (o_core o) /\ export_cats true [o] = None /\ export_cats false [o] = None.
Proof.
  exists (Object None curve). destruct two_stored as [_ B]. inversion_clear B. repeat split; auto.
Qed.

Lemma C91_low_knots_refuted_holds : exists st s f,
  run 3 CBSpline (start CBSpline in_bsp) [EditKvs lower] = Some st /\ s_core st = Some s /\
  (exists degs kvs cps ws, consistent degs kvs cps ws /\ has_properties s degs kvs cps ws) /\
  export_cats true [Object (Some CBSpline) s] = Some f /\ load_cats 3 (reparse f) = None.
Proof.
  destruct C40_low_knots_refuted_holds as (st & s & A & B & C & _). exists st, s. eexists. split; auto. split; auto. split; auto.
  split; [reflexivity|].
  assert (Some st = Some (after CBSpline in_bsp [EditKvs lower])) as E.
  { rewrite <- A. apply some_eq. vm_compute. reflexivity. }
  injection E as ->.
  assert (s = W_Core.get no_spline (s_core (after CBSpline in_bsp [EditKvs lower]))) as -> by now rewrite B.
  vm_compute. reflexivity.
Qed.
