(** Model of BezierExtractionMatrices (src/py/py_knot_insertion_matrix.cpp 345-468) and of
    BSpline.knot_insertion_matrix(beziers=True) (splinepy/bspline.py 225-256). *)
From Coq Require Import List Arith ZArith QArith Qcanon.
From Verif Require Import Base BaseQc S_Value M_Knots M_KnotInsert M_Extract M_Pieces.
Import ListNotations.
Local Open Scope list_scope.
Local Open Scope nat_scope.

(** py_knot_insertion_matrix.cpp 369-392: the loop of create_new_knot_vector.  [rest] are
    the old knots from i_k_old on, [c] is c_knot, [ref] is ref_count.  Result: knots written
    to return_kv and to new_knots.  [fuel]: places left in return_kv; [None]: a write behind
    its end. *)
Fixpoint fill_knots (fuel : nat) (tol : Qc) (deg : nat) (rest : list Qc) (c : Qc) (ref : nat)
  : option (list Qc * list Qc) :=
  match rest with
  | [] => Some ([], [])
  | k :: rest' =>
      match fuel with
      | 0 => None
      | S fuel =>
          let c := if deg <? ref then k else c in                            (* 372-375 *)
          let ref := if deg <? ref then 1 else ref in
          if qltb (qabs (c - k)%Qc) tol                                      (* 377 *)
          then match fill_knots fuel tol deg rest' c (S ref) with            (* 379-382 *)
               | Some (kv, new) => Some (c :: kv, new)
               | None => None
               end
          else match fill_knots fuel tol deg rest c (S ref) with             (* 385-388 *)
               | Some (kv, new) => Some (c :: kv, c :: new)
               | None => None
               end
      end
  end.

(** Lines 359-396 and 420-425: the knots of the C^-1 spline and the knots to insert.  [None]:
    an array of negative size or a write outside of an array. *)
Definition new_knot_vector (tol : Qc) (deg : nat) (old : list Qc) : option (list Qc * list Qc) :=
  if length old <? (deg + 1) * 2 then None
  else
    let max_new := (length old - (deg + 1) * 2) * deg in
    match fill_knots (max_new + (deg + 1) * 2) tol deg old (hd 0%Qc old) 0 with
    | Some (kv, new) => if length new <=? max_new then Some (kv, new) else None
    | None => None
    end.

(** Lines 415-437: one matrix per parametric dimension; the knot vectors are replaced as
    the loop proceeds.  [done] axes come first. *)
Fixpoint axis_matrices (tol : Qc) (done todo : list (nat * list Qc))
  : option (list global_matrix * list (nat * list Qc)) :=
  match todo with
  | [] => Some ([], done)
  | (deg, kv) :: todo' =>
      match new_knot_vector tol deg kv with
      | None => None
      | Some (kv', new) =>
          match global_insertion_matrix tol (done ++ (deg, kv) :: todo') (length done) new with
          | None => None
          | Some g =>
              match axis_matrices tol (done ++ [(deg, kv')]) todo' with
              | None => None
              | Some (gs, axes) => Some (g :: gs, axes)
              end
          end
      end
  end.

(** bspline.py 237-247: scipy adds entries given twice. *)
Definition dense (g : global_matrix) : list (list Qc) :=
  map (fun r => map (fun c =>
         qsum (map (fun e => if (fst (fst e) =? r) && (snd (fst e) =? c) then snd e else 0%Qc) (gm_entries g)))
       (seq 0 (gm_old g))) (seq 0 (gm_new g)).

(** numpy / scipy a @ b *)
Definition mat_mul (a b : list (list Qc)) : list (list Qc) :=
  map (fun row => map (fun c => qsum (map (fun k => (nth k row 0 * nth c (nth k b []) 0)%Qc) (seq 0 (length b))))
                      (seq 0 (length (hd [] b)))) a.

(** py_knot_insertion_matrix.cpp 345-468 with bspline.py 225-256: one matrix per Bezier
    patch.  [None]: an error, or a read or write outside of an array; the list of matrices
    or of ids is empty (bspline.py 249, C++ line 456). *)
Definition extraction_matrices (tol : Qc) (axes : list (nat * list Qc)) : option (list (list (list Qc))) :=
  match axis_matrices tol [] axes with
  | None => None
  | Some (gs, axes') =>
      let ids := bezier_patch_ids (map (fun a => run_lengths (near tol) (snd a)) axes') (map fst axes') in  (* 441-455 *)
      match map dense gs, ids with
      | m :: ms, _ :: _ =>
          let matrix := fold_left (fun acc n_mat => mat_mul n_mat acc) ms m in   (* 249-251 *)
          all_some (map (pick matrix) ids)                                       (* 254 *)
      | _, _ => None
      end
  end.
