(** Witnesses and assembly of the theorems of T_Micro. *)
From Coq Require Import String List Arith ZArith QArith Qcanon Lia Sorted.
From Verif Require Import Base BaseQc S_Grid S_Spline S_Value S_Knots S_Pieces S_Micro M_Bezier M_Knots M_Micro W_Knots W_KnotInsert P_Micro.
Import ListNotations.
Local Open Scope string_scope.
Local Open Scope list_scope.
Local Open Scope nat_scope.

Lemma C43_span_wise_holds :
  forall ins epsk epsd, (forall p, inserts_new (ins p)) -> (0 < epsk)%Qc -> (0 < epsd)%Qc ->
  forall axes tiling, axes <> [] ->
  Forall2 (fun a t => 0 < t /\ divisible epsk a t /\ divisible epsd a t) axes tiling ->
  exists axes', tile ins epsk epsd true axes (map Z.of_nat tiling) = (Tiled axes', map Z.of_nat tiling) /\
    Forall2 (fun at_ a' => tiled_per_span (fst at_) (snd at_) a') (combine axes tiling) axes' /\
    element_resolutions epsk axes' = map (fun x => n_spans (fst x) * snd x) (combine axes tiling) /\
    map n_spans axes' = map (fun x => n_spans (fst x) * snd x) (combine axes tiling).
Proof. exact tile_span_wise. Qed.

Lemma C43_global_partial_holds :
  forall ins epsk epsd, (forall p, inserts_new (ins p)) -> (0 < epsk)%Qc -> (0 < epsd)%Qc ->
  forall fine coarse tf tc, fine <> [] ->
  Forall2 (fun a t => (divisible epsk a t /\ divisible epsd a t) /\ n_spans a < t) fine tf ->
  Forall2 (fun a t => (divisible epsk a 1 /\ divisible epsd a 1) /\ t <= n_spans a) coarse tc ->
  exists axes', tile ins epsk epsd false (fine ++ coarse) (map Z.of_nat (tf ++ tc)) =
      (Tiled (axes' ++ map with_knots coarse), map Z.of_nat (tf ++ map n_spans coarse)) /\
    Forall2 (fun at_ a' => tiled_overall (fst at_) (snd at_) a') (combine fine tf) axes' /\
    element_resolutions epsk (axes' ++ map with_knots coarse) = tf ++ map n_spans coarse /\
    map n_spans (axes' ++ map with_knots coarse) = tf ++ map n_spans coarse.
Proof. exact tile_global. Qed.

Lemma C43_even_holds :
  forall us steps, StronglySorted Qclt us -> 2 <= length us ->
  exists ns, hand_out steps (repeat 0 (length us - 1)) (diff us) = Some ns /\
    list_sum ns = steps /\ most_even (widths us) ns /\ spread us ns = divided us ns.
Proof.
  intros us steps S H. pose proof (widths_length us) as WL.
  destruct (hand_out_spec (widths us) (widths_pos us S) steps (repeat 0 (length (widths us))) (widths us))
    as (ns & ms & HO & Fa & Sum).
  { intros E. rewrite E in WL. cbn in WL. lia. }
  { apply fair_start. }
  rewrite sum_repeat in Sum. exists ns. rewrite diff_widths, <- WL. split; auto. split; [lia|].
  split; [eapply fair_even; [now apply widths_pos|exact Fa]|]. apply spread_divided. destruct Fa as (L1 & _). lia.
Qed.

Definition two_spans : paxis := KnotAxis 1 [0; 0; qc 1 2; 1; 1]%Qc.

Definition ins_ref (p : nat) := lib_limited (p + 1).

Lemma C43_example_holds :
  (forall p, inserts_new (ins_ref p)) /\
  Forall2 (fun a t => 0 < t /\ divisible eps52 a t /\ divisible eps52 a t) [two_spans; BezierAxis 2] [3; 2] /\
  (exists axes', tile ins_ref eps52 eps52 true [two_spans; BezierAxis 2] [3; 2]%Z = (Tiled axes', [3; 2]%Z) /\
     element_resolutions eps52 axes' = [6; 2]) /\
  (Forall2 (fun a t => (divisible eps52 a t /\ divisible eps52 a t) /\ n_spans a < t) [two_spans] [3] /\
   Forall2 (fun a t => (divisible eps52 a 1 /\ divisible eps52 a 1) /\ t <= n_spans a) [two_spans] [1]) /\
  (exists axes', tile ins_ref eps52 eps52 false [two_spans; two_spans] [3; 1]%Z = (Tiled axes', [3; 2]%Z) /\
     element_resolutions eps52 axes' = [3; 2]) /\
  hand_out 5 [0; 0] (diff [0; 1; qc 3 1]%Qc) = Some [2; 3].
Proof.
  assert (D : forall t, t <= 4 -> divisible eps52 two_spans t).
  { intros t Ht. apply (divisible_le eps52 two_spans 4 t); auto; [reflexivity|].
    split; [lit|]. intros i Hi Hl. cbn [length two_spans] in Hi. cbn in Hi.
    assert (E : i = 1 \/ i = 2) by lia. destruct E as [-> | ->]; unfold Qcle, Qle; vm_compute; discriminate. }
  assert (D1 : divisible eps52 (BezierAxis 2) 2) by (unfold divisible, Qcle, Qle; vm_compute; discriminate).
  split; [intros p; apply lib_limited_new; lia|].
  split.
  { constructor; [split; [lia|split; apply D; lia]|]. constructor; [split; [lia|auto]|constructor]. }
  split.
  { eexists. split; [vm_compute; reflexivity|]. vm_compute. reflexivity. }
  split.
  { split; (constructor; [split; [split; apply D; lia|cbn; lia]|constructor]). }
  split.
  { eexists. split; [vm_compute; reflexivity|]. vm_compute. reflexivity. }
  vm_compute. reflexivity.
Qed.

Lemma C43_misaligned_refuted_holds :
  exists axes axes', Forall (fun a => n_spans a = 1) axes /\ Forall (fun a => divisible eps52 a 3) axes /\
    tile ins_ref eps52 eps52 false axes [1; 3]%Z = (Tiled axes', [1; 3]%Z) /\
    element_resolutions eps52 axes' = [3; 1].
Proof.
  exists [BezierAxis 1; BezierAxis 1]. eexists. split; [repeat constructor|].
  split; [repeat constructor; unfold divisible, Qcle, Qle; vm_compute; discriminate|].
  split; [vm_compute; reflexivity|]. vm_compute. reflexivity.
Qed.

Lemma C43_no_knots_refuted_holds :
  forall ins epsk epsd axes tiling,
  Forall2 (fun a t => Z.of_nat t <= Z.of_nat (length (axis_unique epsk a)) - 1)%Z axes tiling ->
  fst (tile ins epsk epsd false axes (map Z.of_nat tiling)) = TilingError.
Proof.
  intros ins epsk epsd axes tiling H.
  assert (E : fst (additional_global (map Z.of_nat tiling) (map (axis_unique epsk) axes)) = Some []).
  { induction H as [|a t axes tiling Ht H IH]; [reflexivity|]. cbn beta in Ht. cbn [map additional_global].
    destruct (Z.eqb_spec (Z.of_nat t) (Z.of_nat (length (axis_unique epsk a)) - 1)) as [_|N]; [exact IH|].
    destruct (Z.ltb_spec (Z.of_nat t) (Z.of_nat (length (axis_unique epsk a)) - 1)); [exact IH|lia]. }
  unfold tile. now rewrite E.
Qed.

Lemma C43_overwritten_refuted_holds :
  exists axes1 axes2 axes1' axes2', Forall (fun a => n_spans a = 1) axes2 /\
    tile ins_ref eps52 eps52 false axes1 [4; 2]%Z = (Tiled axes1', [4; 3]%Z) /\
    tile ins_ref eps52 eps52 false axes2 [4; 3]%Z = (Tiled axes2', [4; 3]%Z) /\
    element_resolutions eps52 axes2' = [4; 3].
Proof.
  exists [BezierAxis 1; KnotAxis 1 [0; 0; qc 1 4; qc 1 2; 1; 1]%Qc], [BezierAxis 1; BezierAxis 1]. eexists. eexists.
  split; [repeat constructor|]. split; [vm_compute; reflexivity|]. split; [vm_compute; reflexivity|]. vm_compute. reflexivity.
Qed.

Lemma C44_closure_partial_holds :
  forall eps axes uss c k a us, (0 < eps)%Qc ->
  Forall2 (fun a us => divisible eps a 1 /\ distinct_knots a us) axes uss ->
  below (map (fun us => length us - 1) uss) c ->
  nth_error axes k = Some a -> nth_error uss k = Some us -> 2 <= length us - 1 ->
  exists x, face_closure (element_resolutions eps axes) k (flat_id (map (fun us => length us - 1) uss) c) = Some x /\
    (x = MinClosure <-> nth (nth k c 0) us 0%Qc = ax_lower a) /\
    (x = MaxClosure <-> nth (nth k c 0 + 1) us 0%Qc = ax_upper a).
Proof. exact closure_spec. Qed.

Lemma C44_request_holds :
  forall closing_face has_closing_tile para_dim k,
  closing_axis closing_face has_closing_tile para_dim = Along k <->
  has_closing_tile = true /\ k < para_dim /\
  (closing_face = Some "x" /\ k = 0 \/ closing_face = Some "y" /\ k = 1 \/ closing_face = Some "z" /\ k = 2).
Proof.
  intros [c|] has n k; cbn [closing_axis].
  - destruct has; cbn [negb]; [|split; [discriminate|intros [? _]; discriminate]].
    split.
    + destruct (String.eqb_spec c "x") as [->|N1]; [|destruct (String.eqb_spec c "y") as [->|N2];
        [|destruct (String.eqb_spec c "z") as [->|N3]; [|discriminate]]];
      (match goal with |- context [?a <=? ?b] => destruct (Nat.leb_spec a b); [discriminate|] end);
      intros [= <-]; auto 10.
    + intros (_ & Hk & [[[= ->] ->]|[[[= ->] ->]|[[= ->] ->]]]); cbn [String.eqb Ascii.eqb Bool.eqb];
      (match goal with |- context [?a <=? ?b] => destruct (Nat.leb_spec a b); [lia|reflexivity] end).
  - split; [discriminate|]. intros (_ & _ & [[? _]|[[? _]|[? _]]]); discriminate.
Qed.

Lemma C44_example_holds :
  Forall2 (fun a us => divisible eps52 a 1 /\ distinct_knots a us) [BezierAxis 2; two_spans]
    [[0; 1]; [0; qc 1 2; 1]]%Qc /\
  below (map (fun us => length us - 1) [[0; 1]; [0; qc 1 2; 1]]%Qc) [0; 1] /\
  face_closure (element_resolutions eps52 [BezierAxis 2; two_spans]) 1 0 = Some MinClosure /\
  face_closure (element_resolutions eps52 [BezierAxis 2; two_spans]) 1 1 = Some MaxClosure /\
  map (face_closure [2; 3] 1) [0; 1; 2; 3; 4; 5] =
    map Some [MinClosure; MinClosure; NoClosure; NoClosure; MaxClosure; MaxClosure] /\
  closing_axis (Some "y") true 2 = Along 1 /\ closing_axis (Some "z") true 2 = ClosingValueError.
Proof.
  split.
  { constructor; [|constructor; [|constructor]].
    - split; [unfold divisible, Qcle, Qle; vm_compute; discriminate|]. split; [repeat constructor|reflexivity].
    - split.
      + split; [lit|]. intros i Hi _. cbn [length two_spans] in Hi. cbn in Hi.
        assert (E : i = 1 \/ i = 2) by lia. destruct E as [-> | ->]; unfold Qcle, Qle; vm_compute; discriminate.
      + split; [repeat constructor|]. cbn [two_spans length]. intros x. split.
        * intros [<-|[<-|[<-|[]]]]; [exists 1|exists 2|exists 3]; (split; [cbn; lia|reflexivity]).
        * intros (i & Hi & ->). cbn in Hi. assert (E : i = 1 \/ i = 2 \/ i = 3) by lia.
          destruct E as [->|[->| ->]]; cbn; auto. }
  split; [repeat constructor|]. split; [vm_compute; reflexivity|]. split; [vm_compute; reflexivity|].
  repeat split; vm_compute; reflexivity.
Qed.

Lemma C44_single_refuted_holds :
  forall res axis i_patch, i_patch < length (cartesian res) -> nth axis res 0 = 1 ->
  face_closure res axis i_patch = Some MinClosure.
Proof.
  intros res axis i Hi E. unfold face_closure.
  destruct (nth_error (cartesian res) i) as [row|] eqn:R; [|apply nth_error_None in R; lia].
  assert (H : nth axis row 0 = 0).
  { apply nth_error_In in R. clear i Hi. revert axis row R E; induction res as [|r res IH]; intros axis row R E.
    - destruct R as [<-|[]]. now destruct axis.
    - cbn [cartesian] in R. apply in_flat_map in R. destruct R as (row' & H' & Hr). apply in_map_iff in Hr.
      destruct Hr as (j & <- & Hj). apply in_seq in Hj. destruct axis as [|axis]; cbn in *; [lia|]. eauto. }
  now rewrite H.
Qed.

Lemma C44_name_refuted_holds :
  exists name, ~ In name ["x"; "y"; "z"] /\ closing_axis (Some name) true 2 = ClosingTypeError.
Proof. exists "w". split; [|reflexivity]. intros [H|[H|[H|[]]]]; discriminate. Qed.
