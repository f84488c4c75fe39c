(** Property theorems C87: the lines extract.edges draws. *)
From Coq Require Import List Arith ZArith QArith Qcanon Lia.
From Verif Require Import Base BaseQc S_Spline S_Value S_Knots M_Edges S_Edges W_KnotInsert P_Edges W_Edges.
Import ListNotations.
Local Open Scope list_scope.
Local Open Scope nat_scope.

(** C87: surfaces, volumes and higher.  [pos i o j] is the vertex of point [j] of the line along axis
    [i] with the other parameters [o].  The edges are exactly the steps along these lines, every
    vertex belongs to exactly one point of one line, and no edge occurs twice. *)
Theorem C87_edges_are_lines :
  forall (eval : list Qc -> list Qc) eps s resolution all_knots,
  (0 < eps)%Qc -> sp_wf s -> 2 <= length (sp_axes s) ->
  (all_knots = true -> forall p kv, In (KnotAxis p kv) (sp_axes s) -> apart eps kv) ->
  exists V E (pos : nat -> list Qc -> nat -> nat), edges eval eps s resolution all_knots = Some (V, E) /\
    (forall a b, In (a, b) E <-> exists i o j, is_line all_knots s i o /\ S j < nth i resolution 0 /\ a = pos i o j /\ b = pos i o (S j)) /\
    (forall i o j, is_line all_knots s i o -> j < nth i resolution 0 -> nth_error V (pos i o j) = Some (eval (line_point s resolution i o j))) /\
    (forall v, v < length V -> exists i o j, is_line all_knots s i o /\ j < nth i resolution 0 /\ v = pos i o j) /\
    (forall i o j i' o' j', is_line all_knots s i o -> is_line all_knots s i' o' -> j < nth i resolution 0 -> j' < nth i' resolution 0 ->
       pos i o j = pos i' o' j' -> i = i' /\ o = o' /\ j = j') /\
    NoDup E.
Proof. exact C87_edges_are_lines_holds. Qed.
Print Assumptions C87_edges_are_lines.

(** C87: curves. *)
Theorem C87_curve :
  forall (eval : list Qc -> list Qc) eps s a r all_knots,
  sp_axes s = [a] -> 2 <= r ->
  exists V E, edges eval eps s [r] all_knots = Some (V, E) /\ length V = r /\
    (forall j, j < r -> nth_error V j = Some (eval (line_point s [r] 0 [] j))) /\
    (forall x y, In (x, y) E <-> y = S x /\ S x < r).
Proof. exact C87_curve_holds. Qed.
Print Assumptions C87_curve.

(** C87: multipatches: the meshes of the patches one after the other. *)
Theorem C87_multipatch :
  forall eps patches n resolution all_knots parts,
  (forall p, In p patches -> length (sp_axes (snd p)) = n) ->
  all_some (map (fun p => edges (fst p) eps (snd p) resolution all_knots) patches) = Some parts ->
  exists V E (off : nat -> nat), edges_multipatch eps patches n resolution all_knots = Some (V, E) /\
    length V = length (concat (map fst parts)) /\ (forall k, off k = length (concat (map fst (firstn k parts)))) /\
    (forall a b, In (a, b) E <-> exists k Vk Ek x y, nth_error parts k = Some (Vk, Ek) /\ In (x, y) Ek /\ a = off k + x /\ b = off k + y) /\
    (forall k Vk Ek x, nth_error parts k = Some (Vk, Ek) -> x < length Vk -> nth_error V (off k + x) = nth_error Vk x).
Proof. exact multipatch_edges. Qed.
Print Assumptions C87_multipatch.

(** A bilinear patch with one inner knot along its first axis: three lines of two points along the
    second axis, two of three points along the first. *)

Example C87_example :
  edges (fun q => q) (qc 1 100) C87_patch [3; 2] true =
  Some ([[0; 0]; [qc 1 2; 0]; [1; 0]; [0; 1]; [qc 1 2; 1]; [1; 1]; [0; 0]; [0; 1]; [qc 1 2; 0]; [qc 1 2; 1]; [1; 0]; [1; 1]]%Qc,
        [(0, 1); (1, 2); (3, 4); (4, 5); (6, 7); (8, 9); (10, 11)]) /\
  is_line true C87_patch 1 [qc 1 2] /\ ~ is_line false C87_patch 1 [qc 1 2].
Proof. exact C87_example_holds. Qed.

Example C87_example_meets :
  (0 < qc 1 100)%Qc /\ sp_wf C87_patch /\ 2 <= length (sp_axes C87_patch) /\
  (forall p kv, In (KnotAxis p kv) (sp_axes C87_patch) -> apart (qc 1 100) kv).
Proof. exact C87_example_meets_holds. Qed.
Example C87_example_multipatch :
  edges_multipatch (qc 1 100) (map (fun k => ((fun q => map (Qcplus (inj k)) q), Spl [BezierAxis 1] [[0%Qc]; [1%Qc]] None)) [0; 1]) 1 [2] true =
  Some ([[0]; [1]; [1]; [qc 2 1]]%Qc, [(0, 1); (2, 3)]).
Proof. vm_compute. repeat (f_equal; try (apply Qc_is_canon; reflexivity)). Qed.
