(** Model of the primitives of splinepy/helpme/create.py: circle, plate, disk, torus, sphere,
    surface_circle, cone and pyramid.  Oracles as in M_Create; [w] stands for the computed
    1 / np.sqrt(2) and 2**-0.5. *)
From Coq Require Import List Arith ZArith Bool QArith Qcanon.
From Verif Require Import Base BaseQc S_Value M_Core M_Files M_Bezier M_Elevate M_Create.
Import ListNotations.
Local Open Scope list_scope.
Local Open Scope nat_scope.

(** A class called with all its properties. *)
Definition created (limit : nat) (c : cls) (i : inputs) : option spline :=
  match construct limit c i with Done st => s_core st | Raised _ => None end.
(** spline.create.revolved *)
Definition turned_spline (O : oracles) (limit : nat) (s : spline) (axis center : option (list Qc)) (angle : Qc) (n : Z)
  (degree : bool) : option spline :=
  match revolved O s axis center (Some angle) (Some n) degree with Some i => make limit s i | None => None end.

(** circle, 657-672 *)
Definition circle (O : oracles) (limit : nat) (radius : Qc) (n_knot_spans : Z) : option spline :=
  arc O limit radius (inj 360) n_knot_spans 0%Qc true.

(** plate, 698-732 *)
Definition plate_weights (w : Qc) : list Qc := [1; w; 1; w; 1; w; 1; w; 1]%Qc.
Definition plate (limit : nat) (w radius : Qc) : option spline :=
  created limit CRationalBezier (Inputs (Some [2; 2]%Z) None
    (Some (map (row_scale radius)
       [[- qc 1 2; - qc 1 2]; [0; - (1)]; [qc 1 2; - qc 1 2];
        [- (1); 0]; [0; 0]; [1; 0];
        [- qc 1 2; qc 1 2]; [0; 1]; [qc 1 2; qc 1 2]]%Qc))
    (Some (plate_weights w))).

(** surface_circle, 897-928 *)
Definition surface_circle (limit : nat) (w outer_radius : Qc) : option spline :=
  let aux_0 := (outer_radius * w)%Qc in
  created limit CRationalBezier (Inputs (Some [2; 2]%Z) None
    (Some [[- aux_0; - aux_0]; [0; - (inj 2 * aux_0)]; [aux_0; - aux_0];
           [- (inj 2 * aux_0); 0]; [0; 0]; [inj 2 * aux_0; 0];
           [- aux_0; aux_0]; [0; inj 2 * aux_0]; [aux_0; aux_0]]%Qc)
    (Some (plate_weights w))).

(** disk, 735-771 *)
Definition disk (O : oracles) (limit : nat) (outer_radius : Qc) (inner_radius : option Qc) (angle : Qc) (n_knot_spans : Z)
  (degree : bool) : option spline :=
  let inner := match inner_radius with Some r => r | None => 0%Qc end in
  match created limit CNurbs (Inputs (Some [1%Z]) (Some [[0; 0; 1; 1]%Qc]) (Some [[inner; 0]; [outer_radius; 0]]%Qc)
                                     (Some [1; 1]%Qc)) with
  | None => None
  | Some s => turned_spline O limit s None None angle n_knot_spans degree
  end.

(** torus, 774-853.  None: default.  .nurbs: rational_bezier.py 135-138. *)
Definition torus (O : oracles) (limit : nat) (w torus_radius outer : Qc) (inner torus_angle section_angle : option Qc)
  (section_n torus_n : Z) (degree : bool) : option spline :=
  let full := (inj 2 * o_pi O)%Qc in
  let t_angle := match torus_angle with Some a => a | None => full end in                       (* 812-814 *)
  let degree := match torus_angle with Some _ => degree | None => false end in
  let s_angle := match section_angle with Some a => a | None => full end in                     (* 816-821 *)
  let degree := match section_angle with Some _ => degree | None => false end in
  let section :=
    match section_angle, inner with
    | None, None =>                                                                             (* 830-834 *)
        option_map (fun p => if qleb (o_pi O) (qabs t_angle)
                             then Spl (map with_knots (sp_axes p)) (sp_cps p) (sp_weights p) else p)
                   (plate limit w outer)
    | _, _ => disk O limit outer (Some (match inner with Some r => r | None => 0%Qc end)) s_angle section_n degree
    end in
  match section with
  | None => None
  | Some q =>
      turned_spline O limit (Spl (sp_axes q) (map (fun p => row_add p [0%Qc; torus_radius]) (sp_cps q)) (sp_weights q))  (* 845 *)
        (Some [1; 0; 0]%Qc) (Some [0; 0; 0]%Qc) t_angle torus_n degree
  end.

(** sphere, 856-894 *)
Definition sphere (O : oracles) (limit : nat) (outer_radius : Qc) (inner_radius : option Qc) (angle : Qc) (n_knot_spans : Z)
  (degree : bool) : option spline :=
  match disk O limit outer_radius inner_radius (inj 180) 4 true with
  | None => None
  | Some s => turned_spline O limit s (Some [1; 0; 0]%Qc) None angle n_knot_spans degree
  end.

(** np.isclose(a, b) *)
Definition isclose (a b : Qc) : bool := qleb (qabs (a - b)%Qc) (qc 1 100000000 + qc 1 100000 * qabs b)%Qc.

(** cone, 931-974; 965-972 from a ground. *)
Definition cone_on (limit : nat) (ground : spline) (height : Qc) : option spline :=
  match extruded ground [0%Qc; 0%Qc; height] with
  | None => None
  | Some i =>
      option_map (fun c => Spl (sp_axes c)
          (map (fun p => if isclose (last p 0%Qc) height then [0%Qc; 0%Qc; height] else p) (sp_cps c)) (sp_weights c))
        (make limit ground i)
  end.
Definition cone (O : oracles) (limit : nat) (outer_radius height : Qc) (inner_radius : option Qc) (volumetric : bool)
  (angle : Qc) (degree : bool) : option spline :=
  match (if volumetric then disk O limit outer_radius inner_radius angle 4 degree else circle O limit outer_radius 3) with
  | None => None
  | Some ground => cone_on limit ground height
  end.

(** pyramid, 977-1002 *)
Definition pyramid (limit : nat) (width len height : Qc) : option spline :=
  option_map (fun p => Spl (sp_axes p)
      (firstn 4 (sp_cps p) ++ map (fun _ => [width / inj 2; len / inj 2; height]%Qc) (skipn 4 (sp_cps p))) (sp_weights p))
    (box limit [width; len; height]).
