(** Witnesses and assembly of the theorems of T_Edges. *)
From Coq Require Import List Arith ZArith QArith Qcanon Lia.
From Verif Require Import Base BaseQc S_Spline S_Value S_Knots M_Edges S_Edges W_KnotInsert P_Edges.
Import ListNotations.
Local Open Scope list_scope.
Local Open Scope nat_scope.

Lemma C87_edges_are_lines_holds :
  forall (eval : list Qc -> list Qc) eps s resolution all_knots,
  (0 < eps)%Qc -> sp_wf s -> 2 <= length (sp_axes s) ->
  (all_knots = true -> forall p kv, In (KnotAxis p kv) (sp_axes s) -> apart eps kv) ->
  exists V E (pos : nat -> list Qc -> nat -> nat), edges eval eps s resolution all_knots = Some (V, E) /\
    (forall a b, In (a, b) E <-> exists i o j, is_line all_knots s i o /\ S j < nth i resolution 0 /\ a = pos i o j /\ b = pos i o (S j)) /\
    (forall i o j, is_line all_knots s i o -> j < nth i resolution 0 -> nth_error V (pos i o j) = Some (eval (line_point s resolution i o j))) /\
    (forall v, v < length V -> exists i o j, is_line all_knots s i o /\ j < nth i resolution 0 /\ v = pos i o j) /\
    (forall i o j i' o' j', is_line all_knots s i o -> is_line all_knots s i' o' -> j < nth i resolution 0 -> j' < nth i' resolution 0 ->
       pos i o j = pos i' o' j' -> i = i' /\ o = o' /\ j = j') /\
    NoDup E.
Proof.
  intros eval eps s res all He W L A. apply edges_are_lines; auto; [apply W|]. apply Forall_forall. intros [p|p kv] I; cbn; [exact Logic.I|].
  destruct all; [now apply (A eq_refl p kv) | exact Logic.I].
Qed.

Lemma C87_curve_holds :
  forall (eval : list Qc -> list Qc) eps s a r all_knots,
  sp_axes s = [a] -> 2 <= r ->
  exists V E, edges eval eps s [r] all_knots = Some (V, E) /\ length V = r /\
    (forall j, j < r -> nth_error V j = Some (eval (line_point s [r] 0 [] j))) /\
    (forall x y, In (x, y) E <-> y = S x /\ S x < r).
Proof. exact edges_of_curve. Qed.

Definition C87_patch : spline :=
  Spl [KnotAxis 1 [0; 0; qc 1 2; 1; 1]%Qc; BezierAxis 1] (map (fun i => [inj i]) (seq 0 6)) None.

Lemma C87_example_holds :
  edges (fun q => q) (qc 1 100) C87_patch [3; 2] true =
  Some ([[0; 0]; [qc 1 2; 0]; [1; 0]; [0; 1]; [qc 1 2; 1]; [1; 1]; [0; 0]; [0; 1]; [qc 1 2; 0]; [qc 1 2; 1]; [1; 0]; [1; 1]]%Qc,
        [(0, 1); (1, 2); (3, 4); (4, 5); (6, 7); (8, 9); (10, 11)]) /\
  is_line true C87_patch 1 [qc 1 2] /\ ~ is_line false C87_patch 1 [qc 1 2].
Proof.
  split; [|split].
  - vm_compute. repeat (f_equal; try (apply Qc_is_canon; reflexivity)).
  - split; [cbn; lia|]. cbn. constructor; [|constructor]. exists 2. split; [cbn; lia | reflexivity].
  - intros (_ & F). cbn in F. inversion F as [|? ? ? ? H _]; subst. cbn in H. destruct H as [H|H]; apply (f_equal this) in H; vm_compute in H; discriminate.
Qed.

Lemma C87_example_meets_holds :
  (0 < qc 1 100)%Qc /\ sp_wf C87_patch /\ 2 <= length (sp_axes C87_patch) /\
  (forall p kv, In (KnotAxis p kv) (sp_axes C87_patch) -> apart (qc 1 100) kv).
Proof.
  split; [reflexivity|]. split; [|split; [cbn; lia|]].
  - split; [|split; [reflexivity | exact Logic.I]]. constructor; [|constructor; [exact Logic.I | constructor]].
    cbn [ax_wf]. change (knot_vector 1 3 [0; 0; qc 1 2; 1; 1]%Qc). lit.
  - intros p kv [E|[E|[]]]; [|discriminate]. injection E as <- <-. intros x y. cbn [In].
    intros [<-|[<-|[<-|[<-|[<-|[]]]]]] [<-|[<-|[<-|[<-|[<-|[]]]]]]; try (left; reflexivity); right; vm_compute; discriminate.
Qed.

