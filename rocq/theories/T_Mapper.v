(** Theorems about derivatives with respect to the coordinates of a geometry (C72). *)
From Coq Require Import List Arith Lia ZArith Bool QArith Qcanon.
From Verif Require Import Base BaseQc BaseRadix S_Spline S_Value S_Solve S_Deriv S_Mapper M_Mapper P_Total P_MapperBack P_Mapper W_Mapper.
Import ListNotations.
Local Open Scope list_scope.
Local Open Scope nat_scope.


Theorem C72_gradient : forall B field geometry m u divergence hessian laplacian,
  make_mapper field geometry = Ok m -> answers B field geometry u ->
  (divergence = true -> dim_of field = length (sp_axes field)) ->
  exists r G, field_derivatives B m u true divergence hessian laplacian = Ok r /\ fr_gradient r = Some G /\
    forall v, v < dim_of field -> the_gradient (coordinate geometry) (coordinate field v) u (entry G v).
Proof. exact C72_gradient_holds. Qed.
Print Assumptions C72_gradient.

Theorem C72_divergence : forall B field geometry m u gradient hessian laplacian,
  make_mapper field geometry = Ok m -> answers B field geometry u ->
  dim_of field = length (sp_axes field) ->
  exists r d G, field_derivatives B m u gradient true hessian laplacian = Ok r /\ fr_divergence r = Some d /\
    (forall v, v < length u -> the_gradient (coordinate geometry) (coordinate field v) u (G v)) /\ d = trace (length u) G.
Proof. exact C72_divergence_holds. Qed.
Print Assumptions C72_divergence.

Theorem C72_hessian : forall B field geometry m u gradient divergence laplacian,
  make_mapper field geometry = Ok m -> answers B field geometry u ->
  (divergence = true -> dim_of field = length (sp_axes field)) ->
  exists r H, field_derivatives B m u gradient divergence true laplacian = Ok r /\ fr_hessian r = Some H /\
    forall v i, v < dim_of field -> i < length u ->
      second_in (coordinate geometry) (coordinate field v) u i (entry (nth v H []) i).
Proof. exact C72_hessian_holds. Qed.
Print Assumptions C72_hessian.

Theorem C72_laplacian : forall B field geometry m u gradient divergence hessian,
  make_mapper field geometry = Ok m -> answers B field geometry u ->
  (divergence = true -> dim_of field = length (sp_axes field)) ->
  exists r l, field_derivatives B m u gradient divergence hessian true = Ok r /\ fr_laplacian r = Some l /\
    forall v, v < dim_of field -> exists H,
      (forall i, i < length u -> second_in (coordinate geometry) (coordinate field v) u i (H i)) /\
      nth v l 0%Qc = trace (length u) H.
Proof. exact C72_laplacian_holds. Qed.
Print Assumptions C72_laplacian.

Theorem C72_hessian_of_gradient : forall B field geometry m u,
  make_mapper field geometry = Ok m ->
  (exists r, (0 < r)%Qc /\ forall w, near r u w -> answers B field geometry w) ->
  exists r H, field_derivatives B m u false false true false = Ok r /\ fr_hessian r = Some H /\
    forall v i, v < dim_of field -> i < length u ->
      the_gradient (coordinate geometry) (computed_gradient B m v i) u (entry (nth v H []) i).
Proof. exact C72_hessian_of_gradient_holds. Qed.
Print Assumptions C72_hessian_of_gradient.

Theorem C72_basis : forall B field geometry m u gradient hessian laplacian,
  make_mapper field geometry = Ok m -> answers B field geometry u ->
  exists r, basis_function_derivatives B m u gradient hessian laplacian = Ok r /\ br_support r = b_support B field u /\
    (gradient = true -> exists G, br_gradient r = Some G /\ forall k, k < length (br_support r) ->
       the_gradient (coordinate geometry) (spline_basis field (nth k (br_support r) 0)) u (entry G k)) /\
    (hessian = true -> exists H, br_hessian r = Some H /\ forall k i, k < length (br_support r) -> i < length u ->
       second_in (coordinate geometry) (spline_basis field (nth k (br_support r) 0)) u i (entry (nth k H []) i)) /\
    (laplacian = true -> exists l, br_laplacian r = Some l /\ forall k, k < length (br_support r) -> exists H,
       (forall i, i < length u -> second_in (coordinate geometry) (spline_basis field (nth k (br_support r) 0)) u i (H i)) /\
       nth k l 0%Qc = trace (length u) H).
Proof. exact C72_basis_holds. Qed.
Print Assumptions C72_basis.

Theorem C72_refused : forall B field geometry u,
  (length (sp_axes geometry) <> length (sp_axes field) -> make_mapper field geometry = Err ParametricMismatch) /\
  (length (sp_axes geometry) = length (sp_axes field) -> dim_of geometry <> length (sp_axes geometry) ->
     make_mapper field geometry = Err PhysicalMismatch) /\
  (length (sp_axes geometry) = length (sp_axes field) -> dim_of geometry = length (sp_axes geometry) ->
     exists m, make_mapper field geometry = Ok m /\
       forall g d h l, (b_inv B (b_jacobian B geometry u) = None -> field_derivatives B m u g d h l = Err Singular) /\
         (b_inv B (b_jacobian B geometry u) <> None -> (field_derivatives B m u g d h l = Err NotVectorField <-> d = true /\ dim_of field <> length (sp_axes field)))).
Proof. exact C72_refused_holds. Qed.
Print Assumptions C72_refused.

(** Some back end answers: derivatives of any polynomial splines inside their elements. *)
Theorem C72_answered : forall field geometry u,
  sp_weights field = None -> sp_weights geometry = None ->
  length (sp_cps field) = prodn (sp_res field) -> length (sp_cps geometry) = prodn (sp_res geometry) ->
  Forall ax_wf (sp_axes field) -> Forall ax_wf (sp_axes geometry) ->
  Forall2 ax_inside (sp_axes field) u -> Forall2 ax_inside (sp_axes geometry) u ->
  dim_of geometry = length u -> (exists K, inverse (length u) (exact_jacobian geometry u) K) ->
  answers exact_backend field geometry u.
Proof. exact C72_answered_holds. Qed.
Print Assumptions C72_answered.

(** x = u (1 + v), y = v, and the field x^2: its gradient is (2 x, 0), its Laplacian 2. *)
Example C72_example :
  make_mapper example_field example_geometry = Ok (example_field, example_geometry, 2) /\
  answers exact_backend example_field example_geometry example_point /\
  match field_derivatives exact_backend (example_field, example_geometry, 2) example_point true false true true with
  | Ok r => option_map (map (map this)) (fr_gradient r) = Some [[3 # 2; 0 # 1]]%Q /\
      option_map (map (map (map this))) (fr_hessian r) = Some [[[2 # 1; 0 # 1]; [0 # 1; 0 # 1]]]%Q /\
      option_map (map this) (fr_laplacian r) = Some [2 # 1]%Q
  | Err _ => False
  end.
Proof. exact C72_example_holds. Qed.