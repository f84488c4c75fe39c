(** Specification of storing splines in files. *)
From Coq Require Import String List Arith ZArith QArith Qcanon.
From Verif Require Import Base BaseQc S_Value M_Core S_Core M_Files.
Import ListNotations.
Local Open Scope nat_scope.

(** A core with consistent properties that the library can hold. *)
Definition storable (limit : nat) (s : spline) : Prop :=
  exists degs kvs cps ws, consistent degs kvs cps ws /\ supported limit degs kvs cps /\
    has_properties s degs kvs cps ws.

(** The class whose properties the core has. *)
Definition right_class (c : cls) (s : spline) : Prop :=
  (needs_kvs c = true <-> exists p kv, In (KnotAxis p kv) (sp_axes s)) /\
  (needs_ws c = true <-> sp_weights s <> None).
Definition own_class (o : object) : Prop := exists c, o_cls o = Some c /\ right_class c (o_core o).
