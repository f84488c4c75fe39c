(** Witnesses and assembly of the theorems of T_Mapper. *)
From Coq Require Import List Arith Lia ZArith Bool QArith Qcanon.
From Verif Require Import Base BaseQc BaseRadix S_Spline S_Value S_Solve S_Deriv S_Mapper M_Mapper P_Total P_MapperBack P_Mapper.
Import ListNotations.
Local Open Scope list_scope.
Local Open Scope nat_scope.

(** The field is well formed, the back ends return derivatives of field and geometry at
    [u], and the Jacobian of the geometry has an inverse. *)
Definition answers (B : backend) (field geometry : spline) (u : list Qc) : Prop :=
  length (sp_axes field) = length u /\ length (sp_cps field) = prodn (sp_res field) /\
  basis_right (b_support B field) (b_basis B field) field u /\
  geometry_right (b_jacobian B geometry) (b_derivative B geometry) geometry u /\
  inverting (length u) (b_inv B) /\ exists K, inverse (length u) (b_jacobian B geometry u) K.

Lemma made field geometry m : make_mapper field geometry = Ok m ->
  m = (field, geometry, length (sp_axes field)) /\ length (sp_axes geometry) = length (sp_axes field) /\ dim_of geometry = length (sp_axes field).
Proof.
  unfold make_mapper. intros H.
  destruct (Nat.eqb_spec (length (sp_axes geometry)) (length (sp_axes field))) as [E|]; [|discriminate]. cbn [negb] in H.
  destruct (Nat.eqb_spec (length (sp_axes geometry)) (dim_of geometry)) as [E2|]; [|discriminate]. cbn [negb] in H.
  inversion H. rewrite E in *. auto.
Qed.

Lemma C72_gradient_holds : forall B field geometry m u divergence hessian laplacian,
  make_mapper field geometry = Ok m -> answers B field geometry u ->
  (divergence = true -> dim_of field = length (sp_axes field)) ->
  exists r G, field_derivatives B m u true divergence hessian laplacian = Ok r /\ fr_gradient r = Some G /\
    forall v, v < dim_of field -> the_gradient (coordinate geometry) (coordinate field v) u (entry G v).
Proof.
  intros B field geometry m u d h l M (L & N & BR & GR & IN & K & HK) Hd.
  destruct (made _ _ _ M) as (-> & L2 & L3). destruct (IN _ (proj1 GR) (ex_intro _ K HK)) as (iv & E1 & E2).
  rewrite L.
  destruct (field_results_eq B field geometry u L N iv E1 true d h l) as (r & R & R1 & _); [intros; symmetry; now apply Hd|].
  eexists r, _. split; [exact R|]. split; [exact R1|]. intros v Hv.
  destruct (field_gradient B field geometry u L N BR GR iv E2 v) as [A1 A2]. split.
  - revert A1. apply gradient_ext. intros i Hi. symmetry. now rewrite entry_table.
  - intros G' HG i Hi. rewrite entry_table by auto. now apply A2.
Qed.

Lemma C72_divergence_holds : forall B field geometry m u gradient hessian laplacian,
  make_mapper field geometry = Ok m -> answers B field geometry u ->
  dim_of field = length (sp_axes field) ->
  exists r d G, field_derivatives B m u gradient true hessian laplacian = Ok r /\ fr_divergence r = Some d /\
    (forall v, v < length u -> the_gradient (coordinate geometry) (coordinate field v) u (G v)) /\ d = trace (length u) G.
Proof.
  intros B field geometry m u g h l M (L & N & BR & GR & IN & K & HK) Hd.
  destruct (made _ _ _ M) as (-> & L2 & L3). destruct (IN _ (proj1 GR) (ex_intro _ K HK)) as (iv & E1 & E2).
  rewrite L.
  destruct (field_results_eq B field geometry u L N iv E1 g true h l) as (r & R & _ & R1 & _); [intros; symmetry; now apply Hd|].
  eexists r, _, _. split; [exact R|]. split; [exact R1|].
  split; [intros v Hv; exact (field_gradient B field geometry u L N BR GR iv E2 v)|reflexivity].
Qed.

Lemma C72_hessian_holds : forall B field geometry m u gradient divergence laplacian,
  make_mapper field geometry = Ok m -> answers B field geometry u ->
  (divergence = true -> dim_of field = length (sp_axes field)) ->
  exists r H, field_derivatives B m u gradient divergence true laplacian = Ok r /\ fr_hessian r = Some H /\
    forall v i, v < dim_of field -> i < length u ->
      second_in (coordinate geometry) (coordinate field v) u i (entry (nth v H []) i).
Proof.
  intros B field geometry m u g d l M (L & N & BR & GR & IN & K & HK) Hd.
  destruct (made _ _ _ M) as (-> & L2 & L3). destruct (IN _ (proj1 GR) (ex_intro _ K HK)) as (iv & E1 & E2).
  rewrite L.
  destruct (field_results_eq B field geometry u L N iv E1 g d true l) as (r & R & _ & _ & R1 & _); [intros; symmetry; now apply Hd|].
  eexists r, _. split; [exact R|]. split; [exact R1|]. intros v i Hv Hi.
  pose proof (field_second B field geometry u L N BR GR iv E2 v i Hi) as S. revert S. apply second_ext.
  intros j Hj. rewrite nth_map_seq by auto. now rewrite entry_table.
Qed.

Lemma C72_laplacian_holds : forall B field geometry m u gradient divergence hessian,
  make_mapper field geometry = Ok m -> answers B field geometry u ->
  (divergence = true -> dim_of field = length (sp_axes field)) ->
  exists r l, field_derivatives B m u gradient divergence hessian true = Ok r /\ fr_laplacian r = Some l /\
    forall v, v < dim_of field -> exists H,
      (forall i, i < length u -> second_in (coordinate geometry) (coordinate field v) u i (H i)) /\
      nth v l 0%Qc = trace (length u) H.
Proof.
  intros B field geometry m u g d h M (L & N & BR & GR & IN & K & HK) Hd.
  destruct (made _ _ _ M) as (-> & L2 & L3). destruct (IN _ (proj1 GR) (ex_intro _ K HK)) as (iv & E1 & E2).
  rewrite L.
  destruct (field_results_eq B field geometry u L N iv E1 g d h true) as (r & R & _ & _ & _ & R1); [intros; symmetry; now apply Hd|].
  eexists r, _. split; [exact R|]. split; [exact R1|]. intros v Hv.
  eexists. split.
  - intros i Hi. exact (field_second B field geometry u L N BR GR iv E2 v i Hi).
  - rewrite nth_map_seq by auto. reflexivity.
Qed.

(** The entries of the computed gradient, as functions of the parameters. *)
Definition computed_gradient (B : backend) (m : spline * spline * nat) (v i : nat) (w : list Qc) : Qc :=
  match field_derivatives B m w true false false false with
  | Ok r => match fr_gradient r with Some G => entry G v i | None => 0%Qc end
  | Err _ => 0%Qc
  end.

Lemma C72_hessian_of_gradient_holds : forall B field geometry m u,
  make_mapper field geometry = Ok m ->
  (exists r, (0 < r)%Qc /\ forall w, near r u w -> answers B field geometry w) ->
  exists r H, field_derivatives B m u false false true false = Ok r /\ fr_hessian r = Some H /\
    forall v i, v < dim_of field -> i < length u ->
      the_gradient (coordinate geometry) (computed_gradient B m v i) u (entry (nth v H []) i).
Proof.
  intros B field geometry m u M A.
  pose proof (eventually_here u (answers B field geometry) A) as A0.
  destruct (C72_hessian_holds B field geometry m u false false false M A0 ltac:(discriminate)) as (r & H & R & RH & S).
  exists r, H. split; auto. split; auto. intros v i Hv Hi.
  apply (S v i Hv Hi (fun k w => computed_gradient B m v k w)).
  destruct A as (q & Q & A). exists q. split; auto. intros w Nw.
  destruct (C72_gradient_holds B field geometry m w false false false M (A w Nw) ltac:(discriminate)) as (r' & G & R' & RG & SG).
  destruct (SG v Hv) as [SG1 _]. revert SG1. apply gradient_ext. intros k Hk. unfold computed_gradient. now rewrite R', RG.
Qed.

Lemma C72_basis_holds : forall B field geometry m u gradient hessian laplacian,
  make_mapper field geometry = Ok m -> answers B field geometry u ->
  exists r, basis_function_derivatives B m u gradient hessian laplacian = Ok r /\ br_support r = b_support B field u /\
    (gradient = true -> exists G, br_gradient r = Some G /\ forall k, k < length (br_support r) ->
       the_gradient (coordinate geometry) (spline_basis field (nth k (br_support r) 0)) u (entry G k)) /\
    (hessian = true -> exists H, br_hessian r = Some H /\ forall k i, k < length (br_support r) -> i < length u ->
       second_in (coordinate geometry) (spline_basis field (nth k (br_support r) 0)) u i (entry (nth k H []) i)) /\
    (laplacian = true -> exists l, br_laplacian r = Some l /\ forall k, k < length (br_support r) -> exists H,
       (forall i, i < length u -> second_in (coordinate geometry) (spline_basis field (nth k (br_support r) 0)) u i (H i)) /\
       nth k l 0%Qc = trace (length u) H).
Proof.
  intros B field geometry m u g h l M (L & N & BR & GR & IN & K & HK).
  destruct (made _ _ _ M) as (-> & L2 & L3). destruct (IN _ (proj1 GR) (ex_intro _ K HK)) as (iv & E1 & E2).
  rewrite L.
  destruct (basis_results_eq B field geometry u L N iv E1 g h l) as (r & R & RS & RG & RH & RL).
  exists r. split; auto. split; auto. rewrite RS. split; [|split]; intros ->.
  - eexists. split; [exact RG|]. intros k Hk.
    destruct (fn_gradient B field geometry u BR GR iv E2 k Hk) as [A1 A2]. split.
    + revert A1. apply gradient_ext. intros i Hi. symmetry. now rewrite entry_table.
    + intros G' HG i Hi. rewrite entry_table by auto. now apply A2.
  - eexists. split; [exact RH|]. intros k i Hk Hi.
    pose proof (fn_second B field geometry u BR GR iv E2 k i Hk Hi) as S. revert S. apply second_ext.
    intros j Hj. rewrite nth_map_seq by auto. now rewrite entry_table.
  - eexists. split; [exact RL|]. intros k Hk. eexists. split.
    + intros i Hi. exact (fn_second B field geometry u BR GR iv E2 k i Hk Hi).
    + rewrite nth_map_seq by auto. reflexivity.
Qed.

Lemma C72_refused_holds : forall B field geometry u,
  (length (sp_axes geometry) <> length (sp_axes field) -> make_mapper field geometry = Err ParametricMismatch) /\
  (length (sp_axes geometry) = length (sp_axes field) -> dim_of geometry <> length (sp_axes geometry) ->
     make_mapper field geometry = Err PhysicalMismatch) /\
  (length (sp_axes geometry) = length (sp_axes field) -> dim_of geometry = length (sp_axes geometry) ->
     exists m, make_mapper field geometry = Ok m /\
       forall g d h l, (b_inv B (b_jacobian B geometry u) = None -> field_derivatives B m u g d h l = Err Singular) /\
         (b_inv B (b_jacobian B geometry u) <> None -> (field_derivatives B m u g d h l = Err NotVectorField <-> d = true /\ dim_of field <> length (sp_axes field)))).
Proof.
  intros B field geometry u. unfold make_mapper. split; [|split].
  - intros E. apply Nat.eqb_neq in E. now rewrite E.
  - intros E E2. rewrite (proj2 (Nat.eqb_eq _ _) E). cbn [negb].
    replace (length (sp_axes geometry) =? dim_of geometry) with false by (symmetry; apply Nat.eqb_neq; auto). reflexivity.
  - intros E E2. rewrite (proj2 (Nat.eqb_eq _ _) E), E2, Nat.eqb_refl. cbn [negb]. eexists. split; [reflexivity|].
    intros g d h l. unfold field_derivatives, basis_function_derivatives. split.
    + intros ->. reflexivity.
    + intros HI. destruct (b_inv B (b_jacobian B geometry u)) as [iv|]; [|easy].
      destruct d; cbn [andb].
      * destruct (Nat.eqb_spec (length (sp_axes field)) (dim_of field)) as [F|F]; cbn [negb].
        -- split; [discriminate|]. intros [_ C]. now rewrite F in C.
        -- split; auto.
      * split; [discriminate|]. intros [C _]. discriminate.
Qed.

Lemma C72_answered_holds : forall field geometry u,
  sp_weights field = None -> sp_weights geometry = None ->
  length (sp_cps field) = prodn (sp_res field) -> length (sp_cps geometry) = prodn (sp_res geometry) ->
  Forall ax_wf (sp_axes field) -> Forall ax_wf (sp_axes geometry) ->
  Forall2 ax_inside (sp_axes field) u -> Forall2 ax_inside (sp_axes geometry) u ->
  dim_of geometry = length u -> (exists K, inverse (length u) (exact_jacobian geometry u) K) ->
  answers exact_backend field geometry u.
Proof.
  intros field geometry u W1 W2 N1 N2 A1 A2 I1 I2 D K. unfold answers. cbn [b_support b_basis b_jacobian b_derivative b_inv exact_backend].
  split; [exact (Forall2_len _ _ _ I1)|]. split; auto. split; [now apply exact_basis_right|]. split; [now apply exact_geometry_right|].
  split; auto. apply gauss_inverting.
Qed.

Definition example_geometry : spline :=
  Spl [BezierAxis 1; BezierAxis 1] [[0; 0]; [1; 0]; [0; 1]; [1 + 1; 1]]%Qc None.

Definition example_field : spline :=
  Spl [BezierAxis 2; BezierAxis 2] [[0]; [0]; [1]; [0]; [0]; [1 + 1]; [0]; [0]; [1 + 1 + 1 + 1]]%Qc None.

Definition example_point : list Qc := [qc 1 2; qc 1 2].

Lemma C72_example_holds :
  make_mapper example_field example_geometry = Ok (example_field, example_geometry, 2) /\
  answers exact_backend example_field example_geometry example_point /\
  match field_derivatives exact_backend (example_field, example_geometry, 2) example_point true false true true with
  | Ok r => option_map (map (map this)) (fr_gradient r) = Some [[3 # 2; 0 # 1]]%Q /\
      option_map (map (map (map this))) (fr_hessian r) = Some [[[2 # 1; 0 # 1]; [0 # 1; 0 # 1]]]%Q /\
      option_map (map this) (fr_laplacian r) = Some [2 # 1]%Q
  | Err _ => False
  end.
Proof.
  split; [reflexivity|]. split.
  - apply C72_answered_holds; try reflexivity.
    + repeat constructor.
    + repeat constructor.
    + repeat (first [apply Forall2_nil|apply Forall2_cons]); split; reflexivity.
    + repeat (first [apply Forall2_nil|apply Forall2_cons]); split; reflexivity.
    + exists [[qc 2 3; - qc 1 3]; [0; 1]]%Qc. intros i j Hi Hj. cbn in Hi, Hj.
      assert (i = 0 \/ i = 1) as [-> | ->] by lia; assert (j = 0 \/ j = 1) as [-> | ->] by lia; split; apply Qc_is_canon; vm_compute; reflexivity.
  - vm_compute. repeat split.
Qed.

