(** Proofs about irit files. *)
From Coq Require Import List Arith ZArith Bool Lia QArith Qcanon.
From Verif Require Import Base BaseQc S_Value M_Core S_Core P_Core M_Files S_Files P_Files M_Irit S_Irit.
Import ListNotations.
Local Open Scope list_scope.
Local Open Scope nat_scope.

(** * Reading brackets *)
Definition key (t : tok) : bool := match t with Word WBspline | Word WBezier => true | _ => false end.
Lemma chunks_plain l : forall r, Forall (fun t => key t = false) l ->
  chunks (l ++ r) = (l ++ fst (chunks r), snd (chunks r)).
Proof.
  induction l as [|t l IH]; intros r F; cbn [app chunks]; [now destruct (chunks r)|].
  inversion F; subst. rewrite IH by easy. destruct t as [| |[]| | |]; easy.
Qed.

Definition flat (t : tok) : Prop := t <> Open /\ t <> Close.
Lemma cut_flat l r : Forall (fun t => t <> Close) l -> cut (l ++ r) = l ++ cut r.
Proof.
  induction 1 as [|t l H F IH]; [easy|]. cbn [app cut]. rewrite IH. destruct t; try easy.
Qed.
Lemma cut_brackets gs tail : gs <> [] -> Forall (Forall flat) gs ->
  cut (flat_map bracket gs ++ Close :: tail) = flat_map bracket gs.
Proof.
  intros N F. induction F as [|g gs Hg F IH]; [easy|]. cbn [flat_map]. unfold bracket at 1 3.
  rewrite <- app_assoc. cbn [app cut].
  rewrite <- app_assoc. rewrite cut_flat.
  - destruct gs as [|g' gs]; [cbn; now rewrite app_nil_r|].
    rewrite <- !app_assoc. do 2 f_equal. cbn [app]. 
    change (flat_map bracket (g' :: gs)) with (bracket g' ++ flat_map bracket gs) in *. unfold bracket at 1.
    cbn [app cut]. f_equal. unfold bracket at 1 in IH. cbn [app cut] in IH. now apply IH.
  - eapply Forall_impl; [|exact Hg]. now intros ? [].
Qed.

Lemma groups_flat g : forall c r, Forall flat g -> groups (Some c) (g ++ Close :: r) = (c ++ g) :: groups None r.
Proof.
  induction g as [|t g IH]; intros c r F; cbn [app groups]; [now rewrite app_nil_r|].
  inversion F as [|? ? [] ?]; subst. destruct t; try easy; rewrite IH by easy; now rewrite <- app_assoc.
Qed.
Lemma groups_brackets gs : Forall (Forall flat) gs -> groups None (flat_map bracket gs) = gs.
Proof.
  induction 1 as [|g gs Hg F IH]; [easy|]. cbn [flat_map]. unfold bracket at 1. cbn [app groups].
  rewrite <- app_assoc. cbn [app]. rewrite groups_flat by easy. cbn [app]. now rewrite IH.
Qed.

Lemma has_dim_app a b : has_dim (a ++ b) = has_dim a || has_dim b.
Proof. induction a as [|t a IH]; [easy|]. cbn. now destruct t. Qed.
Lemma at_dim_split front r n back : has_dim front = false -> has_dim back = false ->
  at_dim (front ++ Dim r n :: back) = Some (front, (r, lead n n), back).
Proof.
  intros F B. induction front as [|t l IH]; cbn [app at_dim]; [now rewrite B|].
  cbn in F. destruct t; try easy; now rewrite IH.
Qed.
Lemma has_dim_none l : (forall r n, ~ In (Dim r n) l) -> has_dim l = false.
Proof.
  induction l as [|t l IH]; intros H; [easy|]. cbn. destruct t; try (apply IH; intros r n' X; apply (H r n'); now right).
  exfalso. apply (H rational n). now left.
Qed.
Lemma lead_small n : n < 10 -> lead n n = n.
Proof. intros H. destruct n; [easy|]. cbn [lead]. now destruct (Nat.ltb_spec (S n) 10); [|lia]. Qed.

Lemma to_ints_ok l : to_ints (map Int l) = Some l.
Proof. unfold to_ints. rewrite map_map. induction l; cbn; [easy|]. now rewrite IHl. Qed.
Lemma to_reals_ok l : to_reals (map Real l) = Some l.
Proof. unfold to_reals. rewrite map_map. induction l; cbn; [easy|]. now rewrite IHl. Qed.
Lemma no_kv_reals l : existsb is_kv (map Real l) = false.
Proof. induction l; easy. Qed.
Lemma until_reals l : until_kv (map Real l) = map Real l.
Proof. induction l; cbn; congruence. Qed.

(** * One spline *)
Definition irit_data (o : object) : list tok :=
  let s := o_core o in
  (if bspline_base (o_cls o) then map (fun n => Int (Z.of_nat n)) (sp_res s) else []) ++
  map (fun d => Int (d + 1)%Z) (core_degrees s) ++
  [Dim (match sp_weights s with Some _ => true | None => false end) (dim_of (sp_cps s))] ++
  flat_map bracket ((if bspline_base (o_cls o) then map (fun kv => Word WKv :: map Real kv) (core_kvs s) else []) ++
                    map (map Real) (weighted s)) ++ [Close].

Lemma flat_map_map' {A B C} (f : B -> list C) (g : A -> B) l : flat_map f (map g l) = flat_map (fun x => f (g x)) l.
Proof. induction l; cbn; congruence. Qed.
Lemma irit_spline_data o c : o_cls o = Some c ->
  irit_spline o = [Open; Word (para_key (length (sp_axes (o_core o))))] ++
                  Word (if bspline_base (o_cls o) then WBspline else WBezier) :: irit_data o.
Proof.
  intros E. unfold irit_spline, irit_data. rewrite E.
  destruct c; cbn [bezier_base bspline_base app]; rewrite ?flat_map_app, ?flat_map_map', <- ?app_assoc; reflexivity.
Qed.

Lemma irit_data_plain o : Forall (fun t => key t = false) (irit_data o).
Proof.
  unfold irit_data. rewrite !Forall_app. repeat split.
  - destruct (bspline_base _); [|constructor]. apply Forall_forall. intros t H. now apply in_map_iff in H as (x & <- & _).
  - apply Forall_forall. intros t H. now apply in_map_iff in H as (x & <- & _).
  - now repeat constructor.
  - apply Forall_forall. intros t H. apply in_flat_map in H as (g & H1 & H2). unfold bracket in H2. cbn [In] in H2.
    rewrite in_app_iff in H2. destruct H2 as [<-|[H2|[<-|[]]]]; try easy.
    apply in_app_iff in H1 as [H1|H1].
    + destruct (bspline_base _); [|easy]. apply in_map_iff in H1 as (kv & <- & _). destruct H2 as [<-|H2]; [easy|].
      now apply in_map_iff in H2 as (x & <- & _).
    + apply in_map_iff in H1 as (p & <- & _). now apply in_map_iff in H2 as (x & <- & _).
  - now repeat constructor.
Qed.

Lemma chunks_export l : Forall (fun o => exists c, o_cls o = Some c) l ->
  Forall2 (fun o d => exists tail, d = (bspline_base (o_cls o), irit_data o ++ tail)) l (snd (chunks (export_irit l))).
Proof.
  intros F. unfold export_irit. rewrite chunks_plain by now repeat constructor. cbn [snd].
  induction F as [|o l (c & E) F IH]; [constructor|]. cbn [flat_map].
  rewrite (irit_spline_data o c E), <- !app_assoc.
  rewrite chunks_plain by (repeat constructor; destruct (length (sp_axes (o_core o))) as [|[|[|[|]]]]; easy). cbn [snd app chunks].
  rewrite chunks_plain by apply irit_data_plain.
  destruct (bspline_base (o_cls o)) eqn:B; cbn [snd]; constructor; auto; rewrite B; eexists; reflexivity.
Qed.

Lemma zprod_wanted_kvs degs kvs : Forall2 knots_fit degs kvs ->
  zprod (map (fun n => Z.of_nat n) (map ax_n (make_axes degs (Some kvs)))) = wanted degs (Some kvs).
Proof.
  induction 1 as [|d kv degs kvs (A & B & C) F IH]; [easy|]. cbn [make_axes map hd tl wanted zprod fold_right ax_n].
  fold zprod. unfold zprod in IH. rewrite IH. f_equal. lia.
Qed.
Lemma zprod_wanted degs : zprod (map (fun d => (d + 1)%Z) degs) = wanted degs None.
Proof. induction degs as [|d degs IH]; [easy|]. cbn [map wanted zprod fold_right]. unfold zprod in IH. now rewrite IH. Qed.

Lemma weighted_back w : forall p, length w = length p -> Forall (fun x => x <> 0%Qc) w ->
  let rows := map (fun wp => fst wp :: map (fun x => (fst wp * x)%Qc) (snd wp)) (combine w p) in
  map (hd 0%Qc) rows = w /\ map (fun r => map (fun x => (x / hd 0%Qc r)%Qc) (tl r)) rows = p.
Proof.
  induction w as [|a w IH]; intros [|q p] L F; try easy. inversion F as [|? ? Ha F']; subst.
  destruct (IH p) as [E1 E2]; [now injection L|easy|]. cbn zeta in *. cbn [combine map hd tl fst snd]. split.
  - now f_equal.
  - f_equal; [|easy]. rewrite map_map. rewrite <- (map_id q) at 2. apply map_ext. intros x. field. exact Ha.
Qed.

Lemma filter_app_split {A} (f : A -> bool) a b : Forall (fun x => f x = false) a -> Forall (fun x => f x = true) b ->
  filter f (a ++ b) = b.
Proof.
  intros Fa Fb. rewrite filter_app. replace (filter f a) with (@nil A).
  - cbn. induction Fb as [|x b H F IH]; [easy|]. cbn. rewrite H. now f_equal.
  - symmetry. induction Fa as [|x a' H F IH]; [easy|]. cbn. now rewrite H.
Qed.
Lemma filter_app_split' {A} (f : A -> bool) a b : Forall (fun x => f x = true) a -> Forall (fun x => f x = false) b ->
  filter f (a ++ b) = a.
Proof.
  intros Fa Fb. rewrite filter_app. replace (filter f b) with (@nil A).
  - rewrite app_nil_r. induction Fa as [|x a H F IH]; [easy|]. cbn. rewrite H. now f_equal.
  - symmetry. induction Fb as [|x b H F IH]; [easy|]. cbn. now rewrite H.
Qed.

Lemma irit_one limit o tail : own_class o -> storable limit (o_core o) -> weights_ok (o_core o) -> one_digit (o_core o) ->
  irit_load_one limit (bspline_base (o_cls o), irit_data o ++ tail) = Some o.
Proof.
  destruct o as [oc s]. cbn [o_cls o_core]. intros (c & [= ->] & R) St Wn Dg.
  cbn [o_cls o_core] in R.
  assert (c = name_of s) as Ec by (eapply right_unique; [exact R|now apply (name_right s limit)]).
  assert (bspline_base (Some c) = has_kvs s) as K1 by (subst c; unfold name_of; destruct (has_kvs s), (sp_weights s); easy).
  pose proof (generic_ok limit s St) as G. destruct St as (degs & kvs & cps & ws & C & U & H).
  destruct (core_props s degs kvs cps ws C H) as (E1 & E2 & E3 & E4 & E5 & E6 & _).
  pose proof C as (_ & Fit & (dim & D1 & D2) & N & W).
  assert (cps <> []) as Nc.
  { intros X. rewrite X in N. cbn [length] in N.
    destruct kvs as [kvs|]; [apply wanted_pos_kvs in Fit|apply wanted_pos in Fit]; lia. }
  assert (dim_of cps = dim) as Edim by now apply dim_of_uniform.
  assert (dim < 10) as Dlt.
  { unfold one_digit in Dg. rewrite E3 in Dg. destruct cps as [|p cps]; [easy|]. inversion Dg; subst. inversion D2; subst. lia. }
  unfold irit_data, irit_load_one. cbn [o_cls o_core fst snd]. rewrite K1.
  set (kvg := if has_kvs s then map _ (core_kvs s) else []).
  set (ptg := map (map Real) (weighted s)).
  assert (weighted s <> []) as Nw.
  { unfold weighted. rewrite E3, E4. destruct ws as [w|]; [|easy]. destruct w, cps; try easy. }
  assert (Forall (Forall flat) (kvg ++ ptg)) as Fl.
  { apply Forall_app. split.
    - unfold kvg. destruct (has_kvs s); [|constructor]. apply Forall_forall. intros g Hg. apply in_map_iff in Hg as (kv & <- & _).
      constructor; [split; discriminate|]. apply Forall_forall. intros t Ht. apply in_map_iff in Ht as (x & <- & _). split; discriminate.
    - unfold ptg. apply Forall_forall. intros g Hg. apply in_map_iff in Hg as (p & <- & _).
      apply Forall_forall. intros t Ht. apply in_map_iff in Ht as (x & <- & _). split; discriminate. }
  assert (kvg ++ ptg <> []) as Ng.
  { unfold ptg. destruct kvg; [|easy]. cbn. destruct (weighted s); easy. }
  set (front := (if has_kvs s then map (fun n => Int (Z.of_nat n)) (sp_res s) else []) ++ map (fun d => Int (d + 1)%Z) (core_degrees s)).
  assert (cut ((( if has_kvs s then map (fun n => Int (Z.of_nat n)) (sp_res s) else []) ++
     map (fun d => Int (d + 1)%Z) (core_degrees s) ++
     [Dim match sp_weights s with Some _ => true | None => false end (dim_of (sp_cps s))] ++
     flat_map bracket (kvg ++ ptg) ++ [Close]) ++ tail) =
     front ++ Dim match sp_weights s with Some _ => true | None => false end (dim_of (sp_cps s)) :: flat_map bracket (kvg ++ ptg)) as ->.
  { rewrite <- !app_assoc. rewrite (app_assoc _ (map (fun d => Int (d + 1)%Z) (core_degrees s))). fold front.
    rewrite cut_flat.
    - f_equal. cbn [app]. set (dd := Dim _ _). change (dd :: ?l) with ([dd] ++ l). rewrite cut_flat by (repeat constructor; discriminate).
      f_equal. now apply cut_brackets.
    - unfold front. apply Forall_app. split.
      + destruct (has_kvs s); [|constructor]. apply Forall_forall. intros t Ht. apply in_map_iff in Ht as (x & <- & _). discriminate.
      + apply Forall_forall. intros t Ht. apply in_map_iff in Ht as (x & <- & _). discriminate. }
  rewrite at_dim_split.
  2:{ apply has_dim_none. intros r n X. unfold front in X. apply in_app_iff in X as [X|X].
      - destruct (has_kvs s); [|easy]. now apply in_map_iff in X as (x & X & _).
      - now apply in_map_iff in X as (x & X & _). }
  2:{ apply has_dim_none. intros r n X. apply in_flat_map in X as (g & X1 & X2). unfold bracket in X2.
      cbn [In] in X2. rewrite in_app_iff in X2. destruct X2 as [X2|[X2|[X2|[]]]]; try easy.
      apply in_app_iff in X1 as [X1|X1].
      - unfold kvg in X1. destruct (has_kvs s); [|easy]. apply in_map_iff in X1 as (kv & <- & _).
        destruct X2 as [X2|X2]; [easy|]. now apply in_map_iff in X2 as (x & X2 & _).
      - unfold ptg in X1. apply in_map_iff in X1 as (p & <- & _). now apply in_map_iff in X2 as (x & X2 & _). }
  rewrite E3, Edim, lead_small by easy.
  set (res := map Z.of_nat (sp_res s)).
  assert (front = map Int ((if has_kvs s then res else []) ++ map (fun d => (d + 1)%Z) (core_degrees s))) as ->.
  { unfold front, res. rewrite map_app, map_map. destruct (has_kvs s); [now rewrite map_map|reflexivity]. }
  rewrite to_ints_ok. rewrite groups_brackets by easy.
  assert (length res = length (map (fun d => (d + 1)%Z) (core_degrees s))) as Lr
    by (unfold res, sp_res, core_degrees; now rewrite !map_length).
  set (orders := map (fun d => (d + 1)%Z) (core_degrees s)) in *.
  assert ((if has_kvs s then skipn (length ((if has_kvs s then res else []) ++ orders) / 2) ((if has_kvs s then res else []) ++ orders)
           else (if has_kvs s then res else []) ++ orders) = orders) as ->.
  { destruct (has_kvs s); [|easy]. rewrite app_length, <- Lr. replace (length res + length res) with (length res * 2) by lia.
    rewrite Nat.div_mul by lia. rewrite skipn_app, skipn_all, Nat.sub_diag. reflexivity. }
  assert ((if has_kvs s then zprod (firstn (length ((if has_kvs s then res else []) ++ orders) / 2) ((if has_kvs s then res else []) ++ orders))
           else zprod orders) = wanted degs kvs) as ->.
  { destruct (has_kvs s).
    - rewrite app_length, <- Lr. replace (length res + length res) with (length res * 2) by lia.
      rewrite Nat.div_mul by lia. rewrite firstn_app, firstn_all, Nat.sub_diag, firstn_O, app_nil_r.
      subst kvs. unfold res, sp_res. apply (f_equal sp_axes) in E5. rewrite E5. cbn [sp_axes]. now apply zprod_wanted_kvs.
    - subst kvs. unfold orders. rewrite E1. apply zprod_wanted. }
  assert (map (fun o => (o - 1)%Z) orders = core_degrees s) as ->.
  { unfold orders. rewrite map_map. rewrite <- (map_id (core_degrees s)) at 2. apply map_ext. intros d. lia. }
  assert (Forall (fun g => existsb is_kv g = true) kvg) as Fk.
  { unfold kvg. destruct (has_kvs s); [|constructor]. apply Forall_forall. intros g Hg. apply in_map_iff in Hg as (kv & <- & _). reflexivity. }
  assert (Forall (fun g => existsb is_kv g = false) ptg) as Fp.
  { unfold ptg. apply Forall_forall. intros g Hg. apply in_map_iff in Hg as (p & <- & _). apply no_kv_reals. }
  rewrite filter_app_split.
  2:{ eapply Forall_impl; [|exact Fk]. intros g Eg. cbn beta. now rewrite Eg. }
  2:{ eapply Forall_impl; [|exact Fp]. intros g Eg. cbn beta. now rewrite Eg. }
  rewrite filter_app_split' by assumption.
  unfold ptg at 1. rewrite <- concat_map. rewrite to_reals_ok.
  assert (Forall (fun r => length r = if match sp_weights s with Some _ => true | None => false end then dim + 1 else dim) (weighted s)) as Rw.
  { unfold weighted. rewrite E3, E4. destruct ws as [w|]; [|easy]. apply Forall_forall. intros r Hr.
    apply in_map_iff in Hr as ((a & p) & <- & Hap). apply in_combine_r in Hap. cbn. rewrite map_length.
    rewrite Forall_forall in D2. rewrite D2 by easy. lia. }
  rewrite reshape_concat; [| |exact Rw].
  2:{ destruct (sp_weights s); lia. }
  assert (length (weighted s) = length cps) as Lw.
  { unfold weighted. rewrite E3, E4. destruct ws as [w|]; [|easy]. rewrite map_length, combine_length. lia. }
  rewrite Lw, N, Z.eqb_refl. cbn [negb].
  assert ((if has_kvs s then if length (map after_kv kvg) =? length orders
             then option_map Some (all_some (map to_reals (map after_kv kvg))) else None
           else Some None) = Some (if has_kvs s then Some (core_kvs s) else None)) as ->.
  { destruct (has_kvs s); [|easy]. unfold kvg. rewrite !map_map, map_length. unfold orders, core_degrees, core_kvs. rewrite !map_length, Nat.eqb_refl.
    rewrite (all_some_map_eq _ (fun kv => kv)); [now rewrite map_id|]. intros kv _. cbn [after_kv is_kv]. rewrite until_reals. apply to_reals_ok. }
  assert ((if match sp_weights s with Some _ => true | None => false end then Some (map (hd 0%Qc) (weighted s)) else None) = sp_weights s
    /\ (if match sp_weights s with Some _ => true | None => false end
        then map (fun r => map (fun x => (x / hd 0%Qc r)%Qc) (tl r)) (weighted s) else weighted s) = sp_cps s) as [-> ->].
  { unfold weighted, weights_ok in *. rewrite E4 in *. rewrite E3. destruct ws as [w|]; [|easy].
    destruct (weighted_back w cps W Wn) as [-> ->]. easy. }
  rewrite G. cbn [option_map]. now rewrite <- Ec.
Qed.

Lemma irit_roundtrip limit l : Forall own_class l ->
  Forall (fun o => storable limit (o_core o) /\ weights_ok (o_core o) /\ one_digit (o_core o)) l ->
  load_irit limit (export_irit l) = Some l.
Proof.
  intros F1 F2. unfold load_irit.
  assert (Forall (fun o => exists c, o_cls o = Some c) l) as F3
    by (eapply Forall_impl; [|exact F1]; intros o (c & E & _); eauto).
  pose proof (chunks_export l F3) as F. clear F3. revert F1 F2.
  induction F as [|o d l ds (tail & ->) F IH]; intros F1 F2; [easy|].
  inversion F1; subst. inversion F2 as [|? ? (A & B & C)]; subst. cbn [map all_some].
  rewrite irit_one by easy. now rewrite IH.
Qed.
