(** The squares on the surface of a box: every edge belongs to exactly two of them. *)
From Coq Require Import List Arith Lia.
From Verif Require Import Base S_Value S_Faces.
Import ListNotations.
Local Open Scope list_scope.
Local Open Scope nat_scope.

(** Squares and edges in coordinates. *)
Definition on_box (n0 n1 n2 k v a b : nat) : Prop :=
  match k with
  | 0 => (v = 0 \/ v + 1 = n0) /\ a + 1 < n1 /\ b + 1 < n2
  | 1 => (v = 0 \/ v + 1 = n1) /\ a + 1 < n0 /\ b + 1 < n2
  | 2 => (v = 0 \/ v + 1 = n2) /\ a + 1 < n0 /\ b + 1 < n1
  | _ => False
  end.
(** An edge from x to y, the coordinate growing. *)
Definition edge_in (a b x1 x2 y1 y2 : nat) : Prop :=
  (x1 = a /\ y1 = a + 1 /\ x2 = y2 /\ (x2 = b \/ x2 = b + 1)) \/
  (x2 = b /\ y2 = b + 1 /\ x1 = y1 /\ (x1 = a \/ x1 = a + 1)).
Definition edge_on (k v a b x0 x1 x2 y0 y1 y2 : nat) : Prop :=
  match k with
  | 0 => x0 = v /\ y0 = v /\ edge_in a b x1 x2 y1 y2
  | 1 => x1 = v /\ y1 = v /\ edge_in a b x0 x2 y0 y2
  | 2 => x2 = v /\ y2 = v /\ edge_in a b x0 x1 y0 y1
  | _ => False
  end.
Definition same (k v a b k' v' a' b' : nat) : Prop := k = k' /\ v = v' /\ a = a' /\ b = b'.

Ltac flat := repeat match goal with H : _ /\ _ |- _ => destruct H | H : _ \/ _ |- _ => destruct H end.
Ltac one k v a b :=
  exists k, v, a, b; split; [cbn; lia|]; split; [cbn; unfold edge_in; lia|]; split; [unfold same; lia|];
  intros k'' v'' a'' b'' Hb'' He''; destruct k'' as [|[|[|k'']]]; [| | |destruct Hb'']; cbn in Hb'', He''; unfold edge_in, same in *;
  flat; try (exfalso; lia); first [left; lia|right; lia].

Lemma dec0 {v n} : v = 0 \/ v + 1 = n -> {v = 0} + {v + 1 = n}.
Proof. intros H. destruct (Nat.eq_dec v 0); [now left|right; lia]. Qed.

Lemma two_squares n0 n1 n2 k v a b x0 x1 x2 y0 y1 y2 : 2 <= n0 -> 2 <= n1 -> 2 <= n2 ->
  on_box n0 n1 n2 k v a b -> edge_on k v a b x0 x1 x2 y0 y1 y2 ->
  exists k' v' a' b', on_box n0 n1 n2 k' v' a' b' /\ edge_on k' v' a' b' x0 x1 x2 y0 y1 y2 /\ ~ same k' v' a' b' k v a b /\
    forall k'' v'' a'' b'', on_box n0 n1 n2 k'' v'' a'' b'' -> edge_on k'' v'' a'' b'' x0 x1 x2 y0 y1 y2 ->
      same k'' v'' a'' b'' k v a b \/ same k'' v'' a'' b'' k' v' a' b'.
Proof.
  intros N0 N1 N2 Hb He. destruct k as [|[|[|k]]]; [| | |easy]; cbn in Hb, He; unfold edge_in in He; destruct He as (E0 & E0' & [(E1 & E1' & E2 & E3)|(E1 & E1' & E2 & E3)]); destruct Hb as (V & A & B).
  - destruct (Nat.eq_dec x2 0) as [Z|Z]; [|destruct (Nat.eq_dec (x2 + 1) n2) as [Z'|Z']].
    + destruct (dec0 V) as [V0|V0]; clear V; [one 2 0 0 a|one 2 0 (n0 - 2) a].
    + destruct (dec0 V) as [V0|V0]; clear V; [one 2 (n2 - 1) 0 a|one 2 (n2 - 1) (n0 - 2) a].
    + destruct E3 as [E3|E3]; [one 0 v a (b - 1)|one 0 v a (b + 1)].
  - destruct (Nat.eq_dec x1 0) as [Z|Z]; [|destruct (Nat.eq_dec (x1 + 1) n1) as [Z'|Z']].
    + destruct (dec0 V) as [V0|V0]; clear V; [one 1 0 0 b|one 1 0 (n0 - 2) b].
    + destruct (dec0 V) as [V0|V0]; clear V; [one 1 (n1 - 1) 0 b|one 1 (n1 - 1) (n0 - 2) b].
    + destruct E3 as [E3|E3]; [one 0 v (a - 1) b|one 0 v (a + 1) b].
  - destruct (Nat.eq_dec x2 0) as [Z|Z]; [|destruct (Nat.eq_dec (x2 + 1) n2) as [Z'|Z']].
    + destruct (dec0 V) as [V0|V0]; clear V; [one 2 0 a 0|one 2 0 a (n1 - 2)].
    + destruct (dec0 V) as [V0|V0]; clear V; [one 2 (n2 - 1) a 0|one 2 (n2 - 1) a (n1 - 2)].
    + destruct E3 as [E3|E3]; [one 1 v a (b - 1)|one 1 v a (b + 1)].
  - destruct (Nat.eq_dec x0 0) as [Z|Z]; [|destruct (Nat.eq_dec (x0 + 1) n0) as [Z'|Z']].
    + destruct (dec0 V) as [V0|V0]; clear V; [one 0 0 0 b|one 0 0 (n1 - 2) b].
    + destruct (dec0 V) as [V0|V0]; clear V; [one 0 (n0 - 1) 0 b|one 0 (n0 - 1) (n1 - 2) b].
    + destruct E3 as [E3|E3]; [one 1 v (a - 1) b|one 1 v (a + 1) b].
  - destruct (Nat.eq_dec x1 0) as [Z|Z]; [|destruct (Nat.eq_dec (x1 + 1) n1) as [Z'|Z']].
    + destruct (dec0 V) as [V0|V0]; clear V; [one 1 0 a 0|one 1 0 a (n2 - 2)].
    + destruct (dec0 V) as [V0|V0]; clear V; [one 1 (n1 - 1) a 0|one 1 (n1 - 1) a (n2 - 2)].
    + destruct E3 as [E3|E3]; [one 2 v a (b - 1)|one 2 v a (b + 1)].
  - destruct (Nat.eq_dec x0 0) as [Z|Z]; [|destruct (Nat.eq_dec (x0 + 1) n0) as [Z'|Z']].
    + destruct (dec0 V) as [V0|V0]; clear V; [one 0 0 b 0|one 0 0 b (n2 - 2)].
    + destruct (dec0 V) as [V0|V0]; clear V; [one 0 (n0 - 1) b 0|one 0 (n0 - 1) b (n2 - 2)].
    + destruct E3 as [E3|E3]; [one 2 v (a - 1) b|one 2 v (a + 1) b].
Qed.

(** From lists to coordinates. *)
Lemma surface_coordinates n0 n1 n2 q : 2 <= n0 -> 2 <= n1 -> 2 <= n2 ->
  surface_square [n0; n1; n2] q <-> exists k v a b, on_box n0 n1 n2 k v a b /\ q = square k v [a; b].
Proof.
  intros N0 N1 N2. unfold surface_square, side, cell. split.
  - intros (k & v & c & ((Hk & Hv) & Hc & ->)). cbn in Hk.
    destruct k as [|[|[|k]]]; [| | |lia]; cbn in Hc, Hv; inversion Hc as [|? a ? ? A Hc' E1 E2]; inversion Hc' as [|? b ? ? B Hc'' E3 E4]; inversion Hc''; subst.
    + exists 0, v, a, b. cbn. split; [lia|reflexivity].
    + exists 1, v, a, b. cbn. split; [lia|reflexivity].
    + exists 2, v, a, b. cbn. split; [lia|reflexivity].
  - intros (k & v & a & b & H & ->). exists k, v, [a; b]. destruct k as [|[|[|k]]]; [| | |easy]; cbn in *; (split; [|split; [|reflexivity]]; [lia|repeat constructor; lia]).
Qed.

Lemma square_inj n0 n1 n2 k v a b k' v' a' b' : on_box n0 n1 n2 k v a b -> on_box n0 n1 n2 k' v' a' b' ->
  square k v [a; b] = square k' v' [a'; b'] -> same k v a b k' v' a' b'.
Proof.
  destruct k as [|[|[|k]]]; [| | |easy]; (destruct k' as [|[|[|k']]]; [| | |easy]); unfold square, square_corners, insert_at; cbn; intros _ _ H; injection H; intros; unfold same; lia.
Qed.

Lemma edge_coordinates n0 n1 n2 k v a b x y : on_box n0 n1 n2 k v a b -> has_edge (square k v [a; b]) x y ->
  exists x0 x1 x2 y0 y1 y2, x = [x0; x1; x2] /\ y = [y0; y1; y2] /\ (edge_on k v a b x0 x1 x2 y0 y1 y2 \/ edge_on k v a b y0 y1 y2 x0 x1 x2).
Proof.
  intros H. destruct k as [|[|[|k]]]; [| | |easy]; clear H; intros [(i & Hi & -> & ->)|(i & Hi & -> & ->)];
    (destruct i as [|[|[|[|i]]]]; [| | | |lia]); unfold square, square_corners, insert_at; cbn; do 6 eexists; (split; [reflexivity|]); (split; [reflexivity|]); unfold edge_in; lia.
Qed.
Ltac ed i j := exists i; split; [lia|]; split; [|change ((i + 1) mod 4) with j]; cbn; repeat f_equal; lia.
Lemma coordinates_edge n0 n1 n2 k v a b x0 x1 x2 y0 y1 y2 : on_box n0 n1 n2 k v a b -> edge_on k v a b x0 x1 x2 y0 y1 y2 ->
  has_edge (square k v [a; b]) [x0; x1; x2] [y0; y1; y2].
Proof.
  intros H. destruct k as [|[|[|k]]]; [| | |easy]; clear H; cbn; unfold edge_in; intros (E1 & E2 & [(E3 & E4 & E5 & [E6|E6])|(E3 & E4 & E5 & [E6|E6])]); subst; unfold has_edge, edge_of, square, square_corners, insert_at; cbn [map shifted firstn skipn app];
  first [left; ed 0 1|right; ed 0 1|left; ed 1 2|right; ed 1 2|left; ed 2 3|right; ed 2 3|left; ed 3 0|right; ed 3 0].
Qed.
Lemma has_edge_sym q x y : has_edge q x y -> has_edge q y x.
Proof. unfold has_edge. tauto. Qed.
Lemma edge_order k v a b k' v' a' b' x0 x1 x2 y0 y1 y2 : edge_on k v a b x0 x1 x2 y0 y1 y2 -> edge_on k' v' a' b' y0 y1 y2 x0 x1 x2 -> False.
Proof. destruct k as [|[|[|k]]]; [| | |easy]; (destruct k' as [|[|[|k']]]; [| | |easy]); cbn; unfold edge_in; lia. Qed.

Lemma closed_surface n0 n1 n2 q x y : 2 <= n0 -> 2 <= n1 -> 2 <= n2 -> surface_square [n0; n1; n2] q -> has_edge q x y ->
  exists q', surface_square [n0; n1; n2] q' /\ has_edge q' x y /\ q' <> q /\
    forall q'', surface_square [n0; n1; n2] q'' -> has_edge q'' x y -> q'' = q \/ q'' = q'.
Proof.
  intros N0 N1 N2 Hq He. assert (forall z, surface_square [n0; n1; n2] z <-> exists k v a b, on_box n0 n1 n2 k v a b /\ z = square k v [a; b]) as Sc by (intros; now apply surface_coordinates).
  apply Sc in Hq as (k & v & a & b & Hb & ->). destruct (edge_coordinates _ _ _ _ _ _ _ _ _ Hb He) as (x0 & x1 & x2 & y0 & y1 & y2 & -> & -> & D).
  assert (forall p0 p1 p2 r0 r1 r2, edge_on k v a b p0 p1 p2 r0 r1 r2 -> exists q', surface_square [n0; n1; n2] q' /\ has_edge q' [p0; p1; p2] [r0; r1; r2] /\ q' <> square k v [a; b] /\
    forall q'', surface_square [n0; n1; n2] q'' -> has_edge q'' [p0; p1; p2] [r0; r1; r2] -> q'' = square k v [a; b] \/ q'' = q') as G.
  { intros p0 p1 p2 r0 r1 r2 E. destruct (two_squares _ _ _ _ _ _ _ _ _ _ _ _ _ N0 N1 N2 Hb E) as (k' & v' & a' & b' & Hb' & E' & Ne & Un).
    exists (square k' v' [a'; b']). split; [apply Sc; now exists k', v', a', b'|]. split; [now apply (coordinates_edge n0 n1 n2)|]. split.
    - intros Eq. apply Ne. now apply (square_inj n0 n1 n2).
    - intros q'' Hq'' He''. apply Sc in Hq'' as (k'' & v'' & a'' & b'' & Hb'' & ->).
      destruct (edge_coordinates _ _ _ _ _ _ _ _ _ Hb'' He'') as (? & ? & ? & ? & ? & ? & Ex & Ey & D''). injection Ex as <- <- <-. injection Ey as <- <- <-.
      destruct D'' as [D''|D'']; [|exfalso; now apply (edge_order _ _ _ _ _ _ _ _ _ _ _ _ _ _ E D'')].
      destruct (Un _ _ _ _ Hb'' D'') as [(-> & -> & -> & ->)|(-> & -> & -> & ->)]; auto. }
  destruct D as [D|D]; [now apply G|]. destruct (G _ _ _ _ _ _ D) as (q' & H1 & H2 & H3 & H4). exists q'. split; auto. split; [now apply has_edge_sym|]. split; auto.
  intros q'' Hq'' He''. apply H4; auto. now apply has_edge_sym.
Qed.
