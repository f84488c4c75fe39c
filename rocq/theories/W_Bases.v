(** Witnesses and assembly of the theorems of T_Bases. *)
From Coq Require Import List Arith ZArith QArith Qcanon Lia.
From Verif Require Import Base BaseQc S_Spline S_Value M_Core S_Core S_Files S_Create S_SubSpline S_Mapper M_SubSpline M_Bases S_Bases P_SubCut P_SubWitness P_BasesLift P_BasesTop P_Bases.
Import ListNotations.
Local Open Scope list_scope.
Local Open Scope nat_scope.

Lemma C88_bases_holds :
  forall limit elev ins dim s ids, sound limit dim s -> (has_kvs s = false -> dim + 1 <= limit) ->
  match bases limit elev ins s ids false with
  | Some bs => Forall2 (shows s dim (sp_value s)) (chosen s ids) bs
  | None => exists i, In i (chosen s ids) /\ forall r, ~ row_of (length (sp_cps s)) i r
  end.
Proof. exact bases_plain. Qed.

Lemma C88_view_partial_holds :
  forall limit elev ins tol dim s ids, elevates_spans elev -> raises_multiplicity tol ins -> sound limit dim s -> sp_weights s = None ->
  Forall (viewable tol) (sp_axes s) -> (has_kvs s = false -> length (sp_axes s) + 1 <= limit) ->
  match bases limit elev ins s ids true with
  | Some bs => Forall2 (shows s (length (sp_axes s)) (fun us d => nth d us 0%Qc)) (chosen s ids) bs
  | None => exists i, In i (chosen s ids) /\ forall r, ~ row_of (length (sp_cps s)) i r
  end.
Proof. exact bases_view. Qed.

Lemma C88_rational_refuted_holds :
  forall elev ins, exists bs, bases 10 elev ins weighted_segment None true = Some bs /\ length bs = 2 /\
  forall b, In b bs -> sp_value b [qc 1 2] 0 = qc 3 4.
Proof. exact weighted_view. Qed.

Lemma C88_unclamped_refuted_holds :
  forall elev ins, elevates_spans elev ->
  exists b l, bases 10 elev ins unclamped None true = Some (b :: l) /\ sp_value b [qc 5 2] 1 = qc 1 4 /\ spline_basis unclamped 0 [qc 5 2] = qc 1 8.
Proof. exact unclamped_view. Qed.

Lemma C88_oracles_holds : elevates_spans lift /\ raises_multiplicity (qc 1 4) insert_one.
Proof. split; [exact lift_elevates|apply insert_one_raises]. Qed.

Lemma C88_sound_holds : sound 10 1 weighted_segment /\ sound 10 1 unclamped.
Proof.
  split; [|exact unclamped_sound]. split; [|split; [|split; [repeat constructor|repeat constructor]]].
  - destruct (build 10 1 weighted_segment (sp_axes weighted_segment) (sp_cps weighted_segment) (sp_weights weighted_segment)) as [_ B]; auto; try easy; try (cbn; lia); repeat constructor; cbn; lia.
  - repeat split. repeat constructor.
Qed.

Definition C88_curve : spline := Spl [KnotAxis 2 [0; 0; 0; qc 1 2; 1; 1; 1]%Qc] [[0]; [1]; [qc 3 1]; [1]]%Qc None.

Lemma C88_viewable_holds : Forall (viewable (qc 1 4)) (sp_axes C88_curve).
Proof.
  constructor; [|constructor]. split; [cbn; lia|]. split; [split; [reflexivity|split; [reflexivity|split; reflexivity]]|]. split.
  - intros x Hx y Hy. cbn [In] in Hx, Hy. repeat (destruct Hx as [<-|Hx]; [repeat (destruct Hy as [<-|Hy]; [first [left; reflexivity | right; discriminate]|]); easy|]); easy.
  - intros x Lx Ux. change (0 < x)%Qc in Lx. change (x < 1)%Qc in Ux. unfold times. cbn [count_occ].
    destruct (Qc_eq_dec 0 x) as [<-|_]; [discriminate|]. destruct (Qc_eq_dec 1 x) as [<-|_]; [discriminate|]. destruct (Qc_eq_dec (qc 1 2) x); lia.
Qed.

Lemma C88_graph_holds : option_map (fun bs => map (fun b => (map ax_kv (sp_axes b), sp_value b [qc 1 4] 0, sp_value b [qc 1 4] 1)) bs) (bases 10 lift insert_one C88_curve (Some [1; -1]%Z) true) =
  Some [([[0; 0; 0; qc 1 2; 1; 1; 1]%Qc], qc 1 4, qc 5 8); ([[0; 0; 0; qc 1 2; 1; 1; 1]%Qc], qc 1 4, 0%Qc)].
Proof. vm_compute. reflexivity. Qed.

