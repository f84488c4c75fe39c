(** Specification of files in the format of CATS. *)
From Coq Require Import String List Arith ZArith QArith Qcanon.
From Verif Require Import Base BaseQc S_Value M_Core S_Core M_Files S_Files M_Cats.
Import ListNotations.
Local Open Scope string_scope.
Local Open Scope list_scope.
Local Open Scope nat_scope.

(** [t] is what a file keeps of [s]: Bezier axes get knot vectors; weights one are added
    where all splines are made rational. *)
Definition kept (rational : bool) (s t : spline) : Prop :=
  sp_cps t = sp_cps s /\
  sp_weights t = (match sp_weights s with
                  | Some w => Some w
                  | None => if rational then Some (repeat 1%Qc (length (sp_cps s))) else None
                  end) /\
  Forall2 (fun a b => match a with
                      | KnotAxis _ _ => b = a
                      | BezierAxis p => b = KnotAxis p (repeat 0%Qc (p + 1) ++ repeat 1%Qc (p + 1))
                      end) (sp_axes s) (sp_axes t).
(** The same domain and the same map. *)
Definition same_map (s t : spline) : Prop :=
  forall us, (sp_domain t us <-> sp_domain s us) /\ (sp_domain s us -> forall d, sp_value t us d = sp_value s us d).

(** The number an attribute gives. *)
Definition states (x : xml) (k : string) (z : Z) : Prop :=
  match x with
  | Comment => False
  | Elem _ a _ _ => exists before after, a = before ++ (k, [TInt z]) :: after /\ forall v, ~ In (k, v) after
  end.
(** An axis is marked as closed. *)
Definition closed (x : xml) : Prop :=
  match x with
  | Comment => False
  | Elem _ a _ _ => exists before after t u, a = before ++ ("closed", t ++ TInt 1 :: u) :: after /\
                      (forall v, ~ In ("closed", v) after) /\ Forall (fun k => exists z, k = TInt z) t
  end.
Definition children (x : xml) : list xml := match x with Comment => [] | Elem _ _ _ c => c end.
Definition tag (x : xml) : string := match x with Comment => "" | Elem t _ _ _ => t end.
(** A patch with control points of more variables than coordinates, in the order of the
    exporter; the names are optional. *)
Definition patch_file (dim vars : nat) (rows : list (list Qc)) (degs : list Z) (kvs : list (list Qc)) (ws : option (list Qc)) (names : list string) (x : xml) : Prop :=
  tag x = "SplineList" /\ states x "NumberOfSplines" 1 /\ (forall v, match x with Elem _ a _ _ => ~ In ("SplineType", v) a | _ => True end) /\
  exists a t, children x = [Elem "SplineEntry" a t
    ([Elem "cntrlPntVarNames" [] (map TName names) []; Elem "cntrlPntVars" [] (map TReal (concat rows)) []; Elem "deg" [] (map TInt degs) [];
      Elem "kntVecs" [] [] (map (fun kv => Elem "kntVec" [] (map TReal kv) []) kvs)] ++
     match ws with Some w => [Elem "wght" [] (map TReal w) []] | None => [] end)] /\
    (let p := Elem "SplineEntry" a t [] in states p "spaceDim" (Z.of_nat dim) /\ states p "splDim" (Z.of_nat (length degs)) /\
      states p "numOfCntrlPntVars" (Z.of_nat vars) /\ states p "numCntrlPnts" (Z.of_nat (length rows))) /\
    (forall v, ~ In ("closed", v) a).
