(** Quadrature of piecewise polynomials is exact and does not depend on the knots. *)
From Coq Require Import List Arith ZArith Lia Bool QArith Qcanon Sorted Permutation.
From Verif Require Import Base BaseRadix BaseSort BaseQc S_Grid S_Spline P_Spline S_Value P_Value S_Knots S_Pieces P_Pieces S_Deriv P_Deriv M_Core M_Integrate S_Integrate P_Integrate P_View S_Exact P_Poly.
Import ListNotations.
Local Open Scope list_scope.
Local Open Scope nat_scope.

(** * One axis *)
Definition exact1 (k : nat) (r : list (Qc * Qc)) : Prop :=
  forall c, length c <= S k -> qsum (map (fun tw => peval c (fst tw) * snd tw)%Qc r) = pdiff c 0 1.
Definition interior1 (r : list (Qc * Qc)) : Prop := forall tw, In tw r -> (0 < fst tw)%Qc /\ (fst tw < 1)%Qc.
Lemma unit_exact leg o k : exact_rule leg -> 0 < o -> k < 2 * o -> exact1 k (unit_rule leg o).
Proof.
  intros E Ho Hk c Lc. unfold unit_rule. rewrite map_map. cbn [fst snd]. set (h := qc 1 2).
  transitivity (h * qsum (map (fun xw : Qc * Qc => peval (psub c h h) (fst xw) * snd xw) (combine (fst (leg o)) (snd (leg o)))))%Qc.
  - rewrite <- qsum_map_mul_l. apply qsum_ext. intros xw _. rewrite peval_psub. replace (h + fst xw * h)%Qc with ((fst xw + 1) * h)%Qc by ring. ring.
  - rewrite E by (auto; pose proof (length_psub c h h); lia). change (h * pdiff (psub c h h) (- (1)) 1 = pdiff c 0 1)%Qc. rewrite pdiff_subst.
    f_equal; [ring|]. unfold h. apply Qc_is_canon. reflexivity.
Qed.
Lemma unit_interior leg o : gaussian leg -> 0 < o -> interior1 (unit_rule leg o).
Proof.
  intros G Ho [t w] H. destruct (G o Ho) as (_ & _ & F & _). unfold unit_rule in H. apply in_map_iff in H as ([x w'] & E & H). cbn [fst snd] in *. injection E as <- _.
  apply in_combine_l in H. rewrite Forall_forall in F. destruct (F x H) as [A B].
  assert (qc 1 2 + qc 1 2 = 1)%Qc as Eh by (apply Qc_is_canon; reflexivity). assert (0 < qc 1 2)%Qc as Ph by reflexivity. set (h := qc 1 2) in *. clearbody h.
  assert (0 < (x + 1) * h)%Qc by (apply Qc_mul_pos; auto; qlra). assert (0 < (1 - x) * h)%Qc by (apply Qc_mul_pos; auto; qlra). split; qnra.
Qed.
Definition comp1 (r : list (Qc * Qc)) (us : list Qc) (f : Qc -> Qc) : Qc :=
  qsum (map (fun iv => ((snd iv - fst iv) * qsum (map (fun tw => f (fst iv + fst tw * (snd iv - fst iv)) * snd tw) r))%Qc) (combine us (tl us))).
Lemma comp1_cons r a b us f : comp1 r (a :: b :: us) f =
  ((b - a) * qsum (map (fun tw => f (a + fst tw * (b - a)) * snd tw) r) + comp1 r (b :: us) f)%Qc.
Proof. reflexivity. Qed.
Definition pwpol (k : nat) (us : list Qc) (f : Qc -> Qc) : Prop :=
  forall a b, In (a, b) (combine us (tl us)) -> exists g, pol k g /\ forall x, (a < x)%Qc -> (x < b)%Qc -> f x = g x.
Lemma interval_value k r a b f c : exact1 k r -> interior1 r -> (a < b)%Qc -> length c <= S k -> (forall x, (a < x)%Qc -> (x < b)%Qc -> f x = peval c x) ->
  ((b - a) * qsum (map (fun tw : Qc * Qc => f (a + fst tw * (b - a)) * snd tw) r) = pdiff c a b)%Qc.
Proof.
  intros E I Hab Lc H. rewrite (qsum_ext _ (fun tw : Qc * Qc => peval (psub c a (b - a)) (fst tw) * snd tw)%Qc).
  - rewrite E by (pose proof (length_psub c a (b - a)%Qc); lia). rewrite pdiff_subst. f_equal; ring.
  - intros tw Ht. destruct (I tw Ht) as [T1 T2]. destruct (between_in a b (fst tw) Hab T1 T2) as [P1 P2]. rewrite peval_psub. now rewrite H.
Qed.
Definition refines (us us' : list Qc) : Prop := incl us us' /\ hd 0%Qc us = hd 0%Qc us' /\ last us 0%Qc = last us' 0%Qc.
Lemma last_in (l : list Qc) d : l <> [] -> In (last l d) l.
Proof. induction l as [|a l IH]; intros H; [contradiction|]. destruct l as [|b l]; [now left|]. right. apply IH. discriminate. Qed.
Lemma comp1_refine k r r' : exact1 k r -> interior1 r -> exact1 k r' -> interior1 r' ->
  forall us0' a us0 f, StronglySorted Qclt (a :: us0) -> StronglySorted Qclt (a :: us0') -> incl us0 us0' -> last (a :: us0) 0%Qc = last (a :: us0') 0%Qc ->
  pwpol k (a :: us0) f -> comp1 r (a :: us0) f = comp1 r' (a :: us0') f.
Proof.
  intros E I E' I'. induction us0' as [|c us0' IH]; intros a us0 f S S' Hi Hl P.
  - destruct us0 as [|b us0]; [reflexivity|]. exfalso. exact (Hi b (or_introl eq_refl)).
  - destruct us0 as [|b us0].
    { exfalso. change (a = last (c :: us0') 0%Qc) in Hl. inversion S' as [|? ? S2 F X]. rewrite Forall_forall in F.
      assert (In (last (c :: us0') 0%Qc) (c :: us0')) as G by (apply last_in; discriminate). apply F in G. rewrite <- Hl in G. exact (Qclt_not_eq _ _ G eq_refl). }
    inversion S as [|? ? S2 F]; subst. inversion S' as [|? ? S2' F']; subst. inversion F as [|? ? Hab F2]; subst. inversion F' as [|? ? Hac F2']; subst.
    destruct (P a b (or_introl eq_refl)) as (g & (co & Lc & Eg) & Hg).
    assert (forall x, (a < x)%Qc -> (x < b)%Qc -> f x = peval co x) as Hf by (intros; rewrite Hg by auto; apply Eg).
    assert (pwpol k (b :: us0) f) as Pb by (intros x y H; apply P; right; exact H).
    rewrite !comp1_cons. destruct (Hi b (or_introl eq_refl)) as [<-|Hb].
    + rewrite (interval_value k r a c f co), (interval_value k r' a c f co) by auto. f_equal. apply IH; auto.
      intros x Hx. destruct (Hi x (or_intror Hx)) as [<-|H]; auto. exfalso. inversion S2 as [|? ? _ F3]; subst. rewrite Forall_forall in F3. apply F3 in Hx. exact (Qclt_not_eq _ _ Hx eq_refl).
    + assert (c < b)%Qc as Hcb. { inversion S2' as [|? ? _ F3]; subst. rewrite Forall_forall in F3. now apply F3. }
      rewrite (interval_value k r a b f co) by auto. rewrite (interval_value k r' a c f co); auto.
      2:{ intros x X1 X2. apply Hf; auto. eapply Qclt_trans; eauto. }
      rewrite <- (pdiff_split co a c b), <- Qcplus_assoc. f_equal.
      assert (pdiff co c b = (b - c) * qsum (map (fun tw : Qc * Qc => f (c + fst tw * (b - c)) * snd tw) r))%Qc as ->.
      { symmetry. apply (interval_value k); auto. intros x X1 X2. apply Hf; auto. eapply Qclt_trans; eauto. }
      rewrite <- comp1_cons. apply IH; auto.
      * constructor; auto. constructor; auto. inversion S2 as [|? ? _ F3]; subst. eapply Forall_impl; [|exact F3]. intros x Hx. eapply Qclt_trans; eauto.
      * intros x Hx. destruct (Hi x Hx) as [<-|H]; auto. exfalso. destruct Hx as [->|Hx]; [exact (Qclt_not_eq _ _ Hcb eq_refl)|].
        inversion S2 as [|? ? _ F3]; subst. rewrite Forall_forall in F3. apply F3 in Hx. exact (Qclt_not_le _ _ Hx (Qclt_le_weak _ _ Hcb)).
      * intros x y [H|H]; [|now apply Pb]. injection H as <- <-. exists g. split; [now exists co|]. intros x X1 X2. apply Hg; auto. eapply Qclt_trans; eauto.
Qed.

(** * All axes *)
Definition pieces (ks : list nat) (knots : list (list Qc)) (F : list Qc -> Qc) : Prop :=
  forall e, In e (elements knots) -> exists P, spoly ks P /\ forall u, within e u -> F u = P u.
Lemma composite_cons r rs us knots F :
  composite (product_rule (r :: rs)) (us :: knots) F = comp1 r us (fun x => composite (product_rule rs) knots (fun u => F (x :: u))).
Proof.
  unfold composite, comp1. cbn [elements product_rule]. rewrite qsum_flat_map. apply qsum_ext. intros [a b] _. cbn [fst snd]. rewrite map_map.
  transitivity (qsum (map (fun e => (b - a) * (size_of e * qsum (map (fun xw : Qc * Qc => qsum (map (fun tw : list Qc * Qc => F (a + fst xw * (b - a) :: point_of e (fst tw)) * snd tw) (product_rule rs)) * snd xw) r))) (elements knots)))%Qc.
  - apply qsum_ext. intros e _. change (size_of ((a, b) :: e)) with ((b - a) * size_of e)%Qc. rewrite <- Qcmult_assoc. f_equal. f_equal.
    rewrite qsum_flat_map. apply qsum_ext. intros xw _. rewrite map_map. rewrite <- qsum_map_mul_r. apply qsum_ext. intros tw _.
    change (point_of ((a, b) :: e) (fst (fst xw :: fst tw, snd xw * snd tw)%Qc)) with ((a + fst xw * (b - a))%Qc :: point_of e (fst tw)). cbn [snd]. ring.
  - rewrite qsum_map_mul_l. f_equal.
    rewrite (qsum_ext _ (fun e => qsum (map (fun xw : Qc * Qc => size_of e * qsum (map (fun tw : list Qc * Qc => F (a + fst xw * (b - a) :: point_of e (fst tw)) * snd tw) (product_rule rs)) * snd xw) r))%Qc).
    2:{ intros e _. rewrite <- qsum_map_mul_l. apply qsum_ext. intros; ring. }
    rewrite qsum_swap. apply qsum_ext. intros xw _. now rewrite qsum_map_mul_r.
Qed.
Lemma comp1_ext r us f g : interior1 r -> StronglySorted Qclt us -> (forall a b x, In (a, b) (combine us (tl us)) -> (a < x)%Qc -> (x < b)%Qc -> f x = g x) -> comp1 r us f = comp1 r us g.
Proof.
  intros I S H. unfold comp1. apply qsum_ext. intros [a b] Hab. cbn [fst snd]. f_equal. apply qsum_ext. intros tw Ht. f_equal. apply (H a b); auto; apply I in Ht as [T1 T2]; apply between_in; auto.
  all: clear - S Hab; induction S as [|x l S IH F]; [contradiction|]; destruct l as [|y l]; [contradiction|]; destruct Hab as [E|Hab]; [injection E as <- <-; now inversion F|now apply IH].
Qed.
Lemma pair_sorted us a b : StronglySorted Qclt us -> In (a, b) (combine us (tl us)) -> (a < b)%Qc.
Proof.
  intros S Hab. induction S as [|x l S IH F]; [contradiction|]; destruct l as [|y l]; [contradiction|]; destruct Hab as [E|Hab]; [injection E as <- <-; now inversion F|now apply IH].
Qed.
Lemma product_interior rs t w : Forall interior1 rs -> In (t, w) (product_rule rs) -> Forall (fun x => (0 < x)%Qc /\ (x < 1)%Qc) t /\ length t = length rs.
Proof.
  intros F. revert t w. induction F as [|r rs I F IH]; intros t w H.
  - destruct H as [E|[]]. injection E as <- _. split; [constructor|reflexivity].
  - cbn [product_rule] in H. apply in_flat_map in H as (xw & Hx & H). apply in_map_iff in H as ([t' w'] & E & H). injection E as <- _. destruct (IH _ _ H) as [A B].
    split; [constructor; auto; now apply I|]. cbn [length fst]. now rewrite B.
Qed.
Lemma within_point knots e t : Forall (StronglySorted Qclt) knots -> In e (elements knots) -> length t = length knots -> Forall (fun x => (0 < x)%Qc /\ (x < 1)%Qc) t -> within e (point_of e t).
Proof.
  intros F. revert e t. induction F as [|us knots S F IH]; intros e t He L U.
  - destruct He as [<-|[]]. destruct t; [constructor|discriminate].
  - destruct t as [|x t]; [discriminate|]. injection L as L. inversion U as [|? ? [U1 U2] U']; subst. cbn [elements] in He. apply in_flat_map in He as ([a b] & Hab & He). apply in_map_iff in He as (e' & <- & He').
    unfold point_of. cbn [combine map fst snd]. constructor; [|now apply IH]. cbn [fst snd]. apply between_in; auto. eapply pair_sorted; eauto.
Qed.
Lemma composite_ext rs knots F G : Forall interior1 rs -> Forall (StronglySorted Qclt) knots -> length rs = length knots ->
  (forall e u, In e (elements knots) -> within e u -> F u = G u) -> composite (product_rule rs) knots F = composite (product_rule rs) knots G.
Proof.
  intros I S L H. unfold composite. apply qsum_ext. intros e He. f_equal. apply qsum_ext. intros [t w] Ht. f_equal. destruct (product_interior _ _ _ I Ht) as [U Lt]. cbn [fst].
  apply (H e); auto. apply (within_point knots); auto. now rewrite Lt.
Qed.
Lemma comp_swap r us q knots (F : Qc -> list Qc -> Qc) :
  comp1 r us (fun x => composite q knots (F x)) = composite q knots (fun u => comp1 r us (fun x => F x u)).
Proof.
  unfold comp1, composite.
  transitivity (qsum (map (fun iv : Qc * Qc => qsum (map (fun tw : Qc * Qc => qsum (map (fun e => qsum (map (fun sw : list Qc * Qc =>
     (snd iv - fst iv) * snd tw * size_of e * snd sw * F (fst iv + fst tw * (snd iv - fst iv)) (point_of e (fst sw))) q)) (elements knots))) r)) (combine us (tl us))))%Qc.
  - apply qsum_ext. intros iv _. rewrite <- qsum_map_mul_l. apply qsum_ext. intros tw _. rewrite <- qsum_map_mul_r, <- qsum_map_mul_l. apply qsum_ext. intros e _.
    rewrite <- qsum_map_mul_l, <- qsum_map_mul_r, <- qsum_map_mul_l. apply qsum_ext. intros sw _. ring.
  - transitivity (qsum (map (fun iv : Qc * Qc => qsum (map (fun e => qsum (map (fun tw : Qc * Qc => qsum (map (fun sw : list Qc * Qc =>
     (snd iv - fst iv) * snd tw * size_of e * snd sw * F (fst iv + fst tw * (snd iv - fst iv)) (point_of e (fst sw))) q)) r)) (elements knots))) (combine us (tl us))))%Qc.
    { apply qsum_ext. intros iv _. apply qsum_swap. }
    rewrite qsum_swap. apply qsum_ext. intros e _. rewrite <- qsum_map_mul_l.
    transitivity (qsum (map (fun iv : Qc * Qc => qsum (map (fun sw : list Qc * Qc => qsum (map (fun tw : Qc * Qc =>
     (snd iv - fst iv) * snd tw * size_of e * snd sw * F (fst iv + fst tw * (snd iv - fst iv)) (point_of e (fst sw))) r)) q)) (combine us (tl us))))%Qc.
    { apply qsum_ext. intros iv _. apply qsum_swap. }
    rewrite qsum_swap. apply qsum_ext. intros sw _. rewrite <- qsum_map_mul_r, <- qsum_map_mul_l. apply qsum_ext. intros iv _.
    rewrite <- qsum_map_mul_l, <- qsum_map_mul_r, <- qsum_map_mul_l. apply qsum_ext. intros tw _. ring.
Qed.
(** Strictly between neighbours of a finer list: strictly between neighbours. *)
Lemma between_neighbours us x : StronglySorted Qclt us -> us <> [] -> (hd 0%Qc us < x)%Qc -> (x < last us 0%Qc)%Qc -> ~ In x us ->
  exists a b, In (a, b) (combine us (tl us)) /\ (a < x)%Qc /\ (x < b)%Qc.
Proof.
  intros S. induction S as [|a l S IH F]; intros N H1 H2 Hn; [contradiction|]. destruct l as [|b l].
  - cbn in *. exfalso. exact (Qclt_not_le _ _ H1 (Qclt_le_weak _ _ H2)).
  - cbn [hd] in *. destruct (Qclt_le_dec x b) as [L|L].
    + exists a, b. split; [now left|auto].
    + destruct IH as (a' & b' & Hi & Ha & Hb); auto.
      * discriminate.
      * cbn [hd]. apply Qcle_lt_or_eq in L as [L|L]; auto. exfalso. apply Hn. right. left. exact L.
      * intros G. apply Hn. now right.
      * exists a', b'. split; auto. now right.
Qed.
Lemma neighbours_out us a b x : StronglySorted Qclt us -> In (a, b) (combine us (tl us)) -> (a < x)%Qc -> (x < b)%Qc ->
  ~ In x us /\ (hd 0%Qc us < x)%Qc /\ (x < last us 0%Qc)%Qc.
Proof.
  intros S. induction S as [|c l S IH F]; intros H H1 H2; [contradiction|]. destruct l as [|d l]; [contradiction|]. destruct H as [E|H].
  - injection E as -> ->. cbn [hd]. split; [|split; auto].
    + intros [E|[E|Hx]]; subst; [exact (Qclt_not_eq _ _ H1 eq_refl)|exact (Qclt_not_eq _ _ H2 eq_refl)|].
      inversion S as [|? ? _ F2]; subst. rewrite Forall_forall in F2. apply F2 in Hx. exact (Qclt_not_le _ _ H2 (Qclt_le_weak _ _ Hx)).
    + change (x < last (b :: l) 0)%Qc. destruct l as [|d l]; [exact H2|]. inversion S as [|? ? _ F2]; subst. rewrite Forall_forall in F2. eapply Qclt_trans; [exact H2|]. apply F2.
      change (last (b :: d :: l) 0%Qc) with (last (d :: l) 0%Qc). apply last_in. discriminate.
  - destruct (IH H H1 H2) as (A & B & C). inversion F as [|? ? Hcd _]; subst. cbn [hd] in *. split; [|split; [eapply Qclt_trans; eauto|exact C]].
    intros [->|Hx]; auto. exact (Qclt_not_le _ _ B (Qclt_le_weak _ _ Hcd)).
Qed.
Lemma refine_within knots knots' e' u : Forall2 (fun us us' => StronglySorted Qclt us /\ StronglySorted Qclt us' /\ us <> [] /\ refines us us') knots knots' ->
  In e' (elements knots') -> within e' u -> exists e, In e (elements knots) /\ within e u.
Proof.
  intros R. revert e' u. induction R as [|us us' knots knots' (S & S' & N & (Hi & Hh & Hl)) R IH]; intros e' u He W.
  - destruct He as [<-|[]]. exists []. split; [now left|exact W].
  - cbn [elements] in He. apply in_flat_map in He as ([a b] & Hab & He). apply in_map_iff in He as (e1 & <- & He1). inversion W as [|? x ? u' [X1 X2] W']; subst. cbn [fst snd] in *.
    destruct (IH e1 u' He1 W') as (e & He & We). destruct (neighbours_out us' a b x S' Hab X1 X2) as (A & B & C).
    destruct (between_neighbours us x S N) as (a' & b' & Hi' & Y1 & Y2).
    + now rewrite Hh.
    + now rewrite Hl.
    + intros G. apply A. now apply Hi.
    + exists ((a', b') :: e). split.
      * cbn [elements]. apply in_flat_map. exists (a', b'). split; auto. apply in_map_iff. eauto.
      * constructor; auto.
Qed.
Lemma same_integral : forall ks rs rs' knots knots' F,
  Forall2 exact1 ks rs -> Forall interior1 rs -> Forall2 exact1 ks rs' -> Forall interior1 rs' -> length knots = length ks ->
  Forall2 (fun us us' => StronglySorted Qclt us /\ StronglySorted Qclt us' /\ us <> [] /\ refines us us') knots knots' ->
  pieces ks knots F -> composite (product_rule rs) knots F = composite (product_rule rs') knots' F.
Proof.
  induction ks as [|k ks IH]; intros rs rs' knots knots' F E I E' I' L R P.
  - destruct knots; [|discriminate]. inversion E; inversion E'; inversion R; subst. reflexivity.
  - destruct knots as [|us knots]; [discriminate|]. injection L as L. inversion R as [|? us' ? knots'0 (S & S' & N & Rf) R']; subst.
    inversion E as [|? r ? rs0 E1 E2]; subst. inversion E' as [|? r' ? rs0' E1' E2']; subst. inversion I as [|? ? I1 I2]; subst. inversion I' as [|? ? I1' I2']; subst.
    rename knots'0 into knots'. rename rs0 into rs. rename rs0' into rs'. rewrite !composite_cons.
    transitivity (comp1 r us (fun x => composite (product_rule rs') knots' (fun u => F (x :: u)))).
    { apply comp1_ext; auto. intros a b x Hab X1 X2. apply IH; auto. intros e He.
      destruct (P ((a, b) :: e)) as (Q & HQ & EQ). { cbn [elements]. apply in_flat_map. exists (a, b). split; auto. apply in_map_iff. eauto. }
      exists (fun u => Q (x :: u)). split; [apply HQ|]. intros u W. apply EQ. constructor; auto. }
    rewrite !comp_swap. apply composite_ext; auto.
    { clear - R'. induction R' as [|? ? ? ? (A & B & C & D) R IH]; constructor; auto. }
    { pose proof (Forall2_len _ _ _ E2'). pose proof (Forall2_len _ _ _ R'). lia. }
    intros e' u He W. destruct (refine_within knots knots' e' u R' He W) as (e & He2 & W2).
    destruct us as [|a0 us]; [contradiction|]. destruct Rf as (Hi & Hh & Hl). destruct us' as [|a1 us']; [exfalso; exact (Hi a0 (or_introl eq_refl))|]. cbn [hd] in Hh. subst a1.
    apply (comp1_refine k); auto.
    + intros x Hx. destruct (Hi x (or_intror Hx)) as [->|H]; auto. exfalso. inversion S as [|? ? _ F1]; subst. rewrite Forall_forall in F1. apply F1 in Hx. exact (Qclt_not_eq _ _ Hx eq_refl).
    + intros a b Hab. destruct (P ((a, b) :: e)) as (Q & HQ & EQ). { cbn [elements]. apply in_flat_map. exists (a, b). split; auto. apply in_map_iff. eauto. }
      exists (fun x => Q (x :: u)). split.
      * apply HQ. rewrite <- L. assert (length e = length knots) as Le.
        { clear - He2. revert e He2. induction knots as [|v knots IH]; intros e H; [destruct H as [<-|[]]; reflexivity|]. cbn [elements] in H. apply in_flat_map in H as (iv & _ & H). apply in_map_iff in H as (e1 & <- & H1). cbn [length]. f_equal. auto. }
        rewrite <- Le. symmetry. exact (Forall2_len _ _ _ W2).
      * intros x X1 X2. apply EQ. constructor; auto.
Qed.
Lemma pol_integral k f a b r : exact1 k r -> interior1 r -> (a < b)%Qc -> pol k f ->
  integral a b f ((b - a) * qsum (map (fun tw => f (a + fst tw * (b - a)) * snd tw) r))%Qc.
Proof.
  intros E I Hab (c & Lc & Ef). rewrite (interval_value k r a b f c) by auto. destruct (poly_integral c a b) as (F & EF & H). exists F. split; auto.
  intros e He. destruct (H e He) as (r0 & R0 & H0). exists r0. split; auto. intros x y. rewrite Ef. apply H0.
Qed.
Lemma spoly_integral : forall ks rs e P, Forall2 exact1 ks rs -> Forall interior1 rs -> length e = length ks -> Forall (fun iv => (fst iv < snd iv)%Qc) e -> spoly ks P ->
  box_integral e P (size_of e * qsum (map (fun tw => P (point_of e (fst tw)) * snd tw) (product_rule rs)))%Qc.
Proof.
  induction ks as [|k ks IH]; intros rs e P E I L S HP.
  - destruct e; [|discriminate]. inversion E; subst. cbn. ring.
  - destruct e as [|[a b] e]; [discriminate|]. injection L as L. inversion E as [|? r ? rs0 E1 E2]; subst. inversion I as [|? ? I1 I2]; subst. inversion S as [|? ? S1 S2]; subst. cbn [fst snd] in S1.
    rename rs0 into rs. destruct HP as [HP1 HP2]. cbn [box_integral].
    exists (fun x => size_of e * qsum (map (fun tw : list Qc * Qc => P (x :: point_of e (fst tw)) * snd tw) (product_rule rs)))%Qc. split.
    + intros x _ _. apply (IH rs e (fun u => P (x :: u))); auto.
    + eapply eq_rect; [apply (pol_integral k _ a b r); auto|].
      * apply pol_scale. apply pol_sum. intros [t w] Ht. apply pol_scale_r. apply HP1. cbn [fst]. destruct (product_interior _ _ _ I2 Ht) as [_ Lt].
        rewrite point_of_length; [|rewrite L, Lt; exact (Forall2_len _ _ _ E2)]. rewrite Lt. symmetry. exact (Forall2_len _ _ _ E2).
      * change (size_of ((a, b) :: e)) with ((b - a) * size_of e)%Qc. rewrite <- Qcmult_assoc. f_equal. cbn [product_rule]. rewrite qsum_flat_map, <- qsum_map_mul_l. apply qsum_ext. intros xw _.
        rewrite map_map. rewrite <- Qcmult_assoc. f_equal. rewrite <- qsum_map_mul_r. apply qsum_ext. intros tw _.
        change (point_of ((a, b) :: e) (fst (fst xw :: fst tw, snd xw * snd tw)%Qc)) with ((a + fst xw * (b - a))%Qc :: point_of e (fst tw)). cbn [snd]. ring.
Qed.

(** * Integrals over elements are unique *)
Lemma integral_agree a b f g v w : (a < b)%Qc -> (forall x, (a < x)%Qc -> (x < b)%Qc -> f x = g x) -> integral a b f v -> integral a b g w -> v = w.
Proof.
  intros Hab Hfg Hf Hg.
  assert (forall h z, integral a b h z -> forall e, (0 < e)%Qc -> exists r, (0 < r)%Qc /\ forall x y, (a <= x)%Qc -> (x <= b)%Qc -> (a <= y)%Qc -> (y <= b)%Qc -> (qabs (y - x) < r)%Qc ->
    (qabs (h y - h x) <= e + e)%Qc) as UC.
  { intros h z (F & _ & H) e He. destruct (H e He) as (r & Hr & K). exists r. split; auto. intros x y X1 X2 Y1 Y2 D. destruct (Qc_eq_dec x y) as [->|N].
    - replace (h y - h y)%Qc with 0%Qc by ring. change (qabs 0) with 0%Qc. qlra.
    - assert (qabs (x - y) < r)%Qc as D'. { replace (x - y)%Qc with (- (y - x))%Qc by ring. now rewrite qabs_opp. }
      pose proof (K x y X1 X2 Y1 Y2 D) as K1. pose proof (K y x Y1 Y2 X1 X2 D') as K2.
      replace (qabs (x - y)) with (qabs (y - x)) in K2 by (rewrite <- qabs_opp; f_equal; ring).
      assert (0 < qabs (y - x))%Qc as P. { apply qabs_gt_0. intros Z. apply N. rewrite <- (Qcplus_0_l x), <- Z. ring. }
      assert (qabs (h y - h x) * qabs (y - x) <= (e + e) * qabs (y - x))%Qc as G.
      { rewrite <- qabs_mul. replace ((h y - h x) * (y - x))%Qc with ((F y - F x - h x * (y - x)) + (F x - F y - h y * (x - y)))%Qc by ring.
        eapply Qcle_trans; [apply qabs_add|]. clear - K1 K2. qlra. }
      destruct (Qclt_le_dec (e + e) (qabs (h y - h x))) as [L|L]; auto. exfalso.
      apply (Qclt_not_le _ _ (Qcmult_lt_compat_r _ _ _ P L)). exact G. }
  assert (forall p, (p = a \/ p = b) -> f p = g p) as Ends.
  { intros p Hp. assert (f p - g p = 0)%Qc as Z; [|rewrite <- (Qcplus_0_l (g p)), <- Z; ring].
    destruct (Qc_eq_dec (f p - g p) 0) as [|N]; auto. exfalso. apply qabs_gt_0 in N. set (d := qabs (f p - g p)) in *.
    assert (0 < d * qc 1 8)%Qc as He by (apply Qc_mul_pos; auto; reflexivity). set (e := (d * qc 1 8)%Qc) in *.
    assert (e * inj 8 = d)%Qc as Ee. { unfold e. assert (qc 1 8 * inj 8 = 1)%Qc as X by (apply Qc_is_canon; reflexivity). rewrite <- Qcmult_assoc, X. ring. }
    destruct (UC f v Hf e He) as (r1 & R1 & K1). destruct (UC g w Hg e He) as (r2 & R2 & K2). destruct (two_radii r1 r2 R1 R2) as (r & Hr & L1 & L2).
    assert (0 < b - a)%Qc as Pba by qlra. destruct (two_radii r (b - a) Hr Pba) as (q & Hq & Q1 & Q2).
    assert (exists y, (a < y)%Qc /\ (y < b)%Qc /\ (qabs (y - p) < r)%Qc) as (y & Y1 & Y2 & Y3).
    { assert (0 < q * qc 1 2)%Qc as Hh by (apply Qc_mul_pos; auto; reflexivity). assert (q * qc 1 2 + q * qc 1 2 = q)%Qc as Eh.
      { assert (qc 1 2 + qc 1 2 = 1)%Qc as X by (apply Qc_is_canon; reflexivity). rewrite <- Qcmult_plus_distr_r, X. ring. }
      set (h := (q * qc 1 2)%Qc) in *. clearbody h. destruct Hp as [->| ->].
      - exists (a + h)%Qc. replace (a + h - a)%Qc with h by ring. rewrite qabs_pos_eq by (now apply Qclt_le_weak). clear - Hh Eh Q1 Q2 Hq. repeat split; qlra.
      - exists (b - h)%Qc. replace (b - h - b)%Qc with (- h)%Qc by ring. rewrite qabs_opp, qabs_pos_eq by (now apply Qclt_le_weak). clear - Hh Eh Q1 Q2 Hq. repeat split; qlra. }
    assert ((a <= p)%Qc /\ (p <= b)%Qc) as [P1 P2]. { clear - Hp Hab. destruct Hp as [->| ->]; split; qlra. }
    specialize (K1 p y P1 P2 (Qclt_le_weak _ _ Y1) (Qclt_le_weak _ _ Y2) (Qclt_le_trans _ _ _ Y3 L1)).
    specialize (K2 p y P1 P2 (Qclt_le_weak _ _ Y1) (Qclt_le_weak _ _ Y2) (Qclt_le_trans _ _ _ Y3 L2)).
    assert (d <= (e + e) + (e + e))%Qc as G.
    { unfold d. replace (f p - g p)%Qc with (- (f y - f p) + (g y - g p))%Qc by (rewrite (Hfg y Y1 Y2); ring). eapply Qcle_trans; [apply qabs_add|]. rewrite qabs_opp. clear - K1 K2. qlra. }
    clearbody e d. clear - Ee He G. assert (inj 8 = 1 + 1 + 1 + 1 + 1 + 1 + 1 + 1)%Qc as X by (apply Qc_is_canon; reflexivity). rewrite X in Ee. qlra. }
  apply (integral_unique a b f); auto; [now apply Qclt_le_weak|]. destruct Hg as (G & EG & H). exists G. split; auto. intros e He. destruct (H e He) as (r & Hr & K). exists r. split; auto.
  intros x y X1 X2. replace (f x) with (g x); [now apply K|]. symmetry. apply Qcle_lt_or_eq in X1 as [X1|X1]; [|apply Ends; auto]. apply Qcle_lt_or_eq in X2 as [X2|X2]; [|apply Ends; auto]. now apply Hfg.
Qed.
Lemma box_agree e : forall P Q v w, Forall (fun iv => (fst iv < snd iv)%Qc) e -> (forall u, within e u -> P u = Q u) -> box_integral e P v -> box_integral e Q w -> v = w.
Proof.
  induction e as [|[a b] e IH]; intros P Q v w S H HP HQ.
  - cbn in *. subst. apply H. constructor.
  - inversion S as [|? ? S1 S2]; subst. cbn [fst snd] in S1. destruct HP as (g & Hg & Ig), HQ as (h & Hh & Ih). apply (integral_agree a b g h); auto.
    intros x X1 X2. apply (IH (fun u => P (x :: u)) (fun u => Q (x :: u))); auto; [|apply Hg|apply Hh]; try (now apply Qclt_le_weak). intros u W. apply H. constructor; auto.
Qed.

(** * Polynomials of several variables *)
Lemma spoly_ext ks : forall F G, (forall u, F u = G u) -> spoly ks F -> spoly ks G.
Proof.
  induction ks as [|k ks IH]; intros F G H HF; [exact I|]. destruct HF as [A B]. split.
  - intros u L. apply (pol_ext k (fun x => F (x :: u))); auto.
  - intros x. apply (IH (fun u => F (x :: u))); auto.
Qed.
Lemma spoly_const ks a : spoly ks (fun _ => a).
Proof. induction ks as [|k ks IH]; [exact I|]. split; auto. intros. apply pol_const. Qed.
Lemma spoly_add ks : forall F G, spoly ks F -> spoly ks G -> spoly ks (fun u => F u + G u)%Qc.
Proof.
  induction ks as [|k ks IH]; intros F G HF HG; [exact I|]. destruct HF as [A B], HG as [C D]. split.
  - intros u L. apply pol_add; auto.
  - intros x. now apply IH.
Qed.
Lemma spoly_mul ks : forall ls F G, length ls = length ks -> spoly ks F -> spoly ls G -> spoly (map (fun kl => fst kl + snd kl) (combine ks ls)) (fun u => F u * G u)%Qc.
Proof.
  induction ks as [|k ks IH]; intros [|l ls] F G E HF HG; try discriminate; [exact I|]. injection E as E. destruct HF as [A B], HG as [C D]. split.
  - intros u L. fold (@map (nat * nat) nat) in L. rewrite map_length, combine_length in L. apply pol_mul; [apply A|apply C]; cbn [length] in *; lia.
  - intros x. now apply IH.
Qed.
Lemma spoly_scale ks a : forall F, spoly ks F -> spoly ks (fun u => a * F u)%Qc.
Proof.
  induction ks as [|k ks IH]; intros F HF; [exact I|]. destruct HF as [A B]. split.
  - intros u L. apply pol_scale; auto.
  - intros x. now apply IH.
Qed.
Lemma spoly_sum {A} ks (F : A -> list Qc -> Qc) l : (forall i, In i l -> spoly ks (F i)) -> spoly ks (fun u => qsum (map (fun i => F i u) l)).
Proof.
  induction l as [|i l IH]; intros H; [exact (spoly_const ks 0%Qc)|]. apply (spoly_add ks (F i)); [apply H; now left|]. apply IH. intros; apply H; now right.
Qed.
Lemma skipped_sum (f : nat -> nat) n j : j <= n ->
  f j + list_sum (map (fun k => f (if k <? j then k else S k)) (seq 0 n)) = list_sum (map f (seq 0 (S n))).
Proof.
  revert j. induction n as [|n IH]; intros j H; [replace j with 0 by lia; cbn; lia|].
  rewrite (seq_S (S n)), (seq_S n 0), !map_app, !list_sum_app. cbn [map Nat.add]. destruct (Nat.eq_dec j (S n)) as [->|N].
  - destruct (Nat.ltb_spec n (S n)); [|lia]. rewrite (map_ext_in (fun k => f (if k <? S n then k else S k)) f).
    + cbn [list_sum fold_right]. lia.
    + intros k Hk. apply in_seq in Hk. destruct (Nat.ltb_spec k (S n)); [reflexivity|lia].
  - destruct (Nat.ltb_spec n j); [lia|]. specialize (IH j ltac:(lia)). rewrite (seq_S n 0), map_app, list_sum_app in IH. cbn [map Nat.add] in IH. lia.
Qed.
(** Degrees of a determinant: the sums over the columns. *)
Lemma det_spoly {X} (l : list X) n : forall (dg : nat -> X -> nat) (a : nat -> nat -> list Qc -> Qc), (forall i j, i < n -> j < n -> spoly (map (dg j) l) (a i j)) ->
  spoly (map (fun x => list_sum (map (fun j => dg j x) (seq 0 n))) l) (fun u => det n (fun i j => a i j u)).
Proof.
  induction n as [|n IH]; intros dg a H; [exact (spoly_const _ 1%Qc)|]. cbn [det]. apply spoly_sum. intros j Hj. apply in_seq in Hj.
  replace (map (fun x => list_sum (map (fun j => dg j x) (seq 0 (S n)))) l)
    with (map (fun kl => fst kl + snd kl) (combine (map (dg j) l) (map (fun x => list_sum (map (fun k => dg (if k <? j then k else S k) x) (seq 0 n))) l))).
  2:{ rewrite combine_map2, map_map. apply map_ext. intros x. cbn [fst snd]. apply (skipped_sum (fun j => dg j x)). lia. }
  apply spoly_mul; [now rewrite !map_length| |].
  - apply spoly_scale. apply H; lia.
  - apply (IH (fun k => dg (if k <? j then k else S k)) (fun i k => a (S i) (if k <? j then k else S k))). intros i k Hi Hk. apply H; [lia|]. destruct (Nat.ltb_spec k j); lia.
Qed.
Lemma choice_nat {A} (R : nat -> A -> Prop) (d : A) n : (forall i, i < n -> exists x, R i x) -> exists f, forall i, i < n -> R i (f i).
Proof.
  induction n as [|n IH]; intros H; [exists (fun _ => d); lia|]. destruct IH as (f & Hf); [intros; apply H; lia|]. destruct (H n) as (x & Hx); [lia|].
  exists (fun i => if i =? n then x else f i). intros i Hi. destruct (Nat.eqb_spec i n) as [->|N]; auto. apply Hf. lia.
Qed.

(** * Pieces of splines *)
Lemma basis_pol U s p : forall i, pol p (basis U s p i).
Proof.
  induction p as [|p IH]; intros i; [apply pol_const|]. cbn [basis]. apply pol_add.
  - apply (pol_mul 1 p (fun u => (u - U i) / (U (i + S p)%nat - U i))%Qc); auto. unfold Qcdiv. apply pol_scale_r. apply pol_sub; [apply pol_id; lia|apply pol_const].
  - apply (pol_mul 1 p (fun u => (U (i + p + 2)%nat - u) / (U (i + p + 2)%nat - U (i + 1)%nat))%Qc); auto. unfold Qcdiv. apply pol_scale_r. apply pol_sub; [apply pol_const|apply pol_id; lia].
Qed.
Lemma pol_linear_mul p (l f : Qc -> Qc) : pol 1 l -> pol (p - 1) f -> (p = 0 -> forall u, f u = 0%Qc) -> pol p (fun u => l u * f u)%Qc.
Proof.
  intros L F Z. destruct p as [|p].
  - apply (pol_ext 0 (fun _ => 0%Qc)); [intros u; rewrite Z by auto; ring|apply pol_const].
  - apply (pol_mul 1 p); auto. replace p with (S p - 1) by lia. exact F.
Qed.
Lemma dbasis_pol U s p : forall i, pol (p - 1) (dbasis U s p i).
Proof.
  induction p as [|p IH]; intros i; [apply pol_const|]. cbn [dbasis]. replace (S p - 1) with p by lia. apply pol_add; apply pol_add.
  - apply pol_scale. apply basis_pol.
  - apply (pol_linear_mul p (fun u => (u - U i) / (U (i + S p)%nat - U i))%Qc); auto; [|now intros ->]. unfold Qcdiv. apply pol_scale_r. apply pol_sub; [apply pol_id; lia|apply pol_const].
  - apply pol_scale. apply basis_pol.
  - apply (pol_linear_mul p (fun u => (U (i + p + 2)%nat - u) / (U (i + p + 2)%nat - U (i + 1)%nat))%Qc); auto; [|now intros ->]. unfold Qcdiv. apply pol_scale_r. apply pol_sub; [apply pol_const|apply pol_id; lia].
Qed.
Lemma qpow_pol n : pol n (fun t => qpow t n).
Proof. induction n as [|n IH]; [exact (pol_const 0 1%Qc)|]. cbn [qpow]. apply (pol_mul 1 n (fun t => t)); auto. apply pol_id. lia. Qed.
Lemma dqpow_pol n : pol (n - 1) (fun t => dqpow t n).
Proof.
  induction n as [|n IH]; [exact (pol_const 0 0%Qc)|]. cbn [dqpow]. replace (S n - 1) with n by lia. apply pol_add; [apply qpow_pol|].
  apply (pol_linear_mul n (fun t => t)); auto; [apply pol_id; lia|now intros ->].
Qed.
Lemma flip_pol k f : pol k f -> pol k (fun t => f (1 - t)%Qc).
Proof. intros H. apply (pol_ext k (fun t => f (1 + t * - (1))%Qc)); [intros; f_equal; ring|]. now apply (pol_subst k f 1%Qc (- (1))%Qc). Qed.
Lemma bernstein_pol p i : i <= p -> pol p (bernstein p i) /\ pol (p - 1) (dbernstein p i).
Proof.
  intros H. unfold bernstein, dbernstein. split.
  - replace p with (i + (p - i)) at 1 by lia. apply pol_mul; [apply pol_scale, qpow_pol|]. apply (flip_pol _ (fun t => qpow t (p - i))), qpow_pol.
  - apply pol_scale. apply pol_sub.
    + destruct i as [|i]; [apply (pol_ext _ (fun _ => 0%Qc)); [intros; cbn [dqpow]; ring|apply pol_const]|].
      replace (p - 1) with ((S i - 1) + (p - S i)) by lia. apply pol_mul; [apply dqpow_pol|]. apply (flip_pol _ (fun t => qpow t (p - S i))), qpow_pol.
    + destruct (Nat.eq_dec i p) as [->|N]; [apply (pol_ext _ (fun _ => 0%Qc)); [intros; rewrite Nat.sub_diag; cbn [dqpow]; ring|apply pol_const]|].
      replace (p - 1) with (i + (p - i - 1)) by lia. apply pol_mul; [apply qpow_pol|]. apply (flip_pol _ (fun t => dqpow t (p - i))), dqpow_pol.
Qed.
Lemma pair_nth (us : list Qc) x y : In (x, y) (combine us (tl us)) -> exists c, S c < length us /\ x = nth c us 0%Qc /\ y = nth (S c) us 0%Qc.
Proof.
  intros H. apply (In_nth _ _ (0, 0)%Qc) in H as (c & Hc & E). rewrite interval_len in Hc. exists c. split; [lia|].
  rewrite combine_nth_lt in E; [|lia|destruct us; cbn [length tl] in *; lia]. injection E as <- <-. split; auto. destruct us; [cbn in Hc; lia|reflexivity].
Qed.
Lemma knots_wf a us : axis_knots a us -> ax_wf a.
Proof. destruct a as [p|p kv]; intros H; [exact I|]. now apply axis_knot_vector in H. Qed.
Lemma axis_span p kv us c : axis_knots (KnotAxis p kv) us -> S c < length us ->
  exists s, forall u, (nth c us 0 < u)%Qc -> (u < nth (S c) us 0)%Qc -> find_span kv p (ax_n (KnotAxis p kv)) u = s.
Proof.
  intros K Hc. pose proof (knots_wf _ _ K) as W. cbn [ax_wf] in W.
  assert (nth c us 0 < nth (S c) us 0)%Qc as Lt by (apply sorted_nth; [apply K|lia|lia]).
  assert (exists s, p <= s /\ s < ax_n (KnotAxis p kv) /\ kn kv s = nth c us 0%Qc /\ kn kv (S s) = nth (S c) us 0%Qc) as (s & S1 & S2 & S3 & S4).
  { destruct K as (SS & m & -> & L & L2 & M0 & M1 & F). exists (list_sum (firstn (S c) m) - 1).
    pose proof (firstn_sum_lt m c F ltac:(lia)) as G1. pose proof (firstn_sum_lt m (S c) F ltac:(lia)) as G2.
    assert (p + 1 <= list_sum (firstn (S c) m)) as G4.
    { destruct m as [|m0 m]; [cbn in L2; lia|]. cbn [nth] in M0. subst m0. cbn [firstn]. rewrite list_sum_cons. lia. }
    assert (list_sum (firstn (S c) m) + (p + 1) <= list_sum m) as G5.
    { pose proof (firstn_sum_mono m (S c) (length m - 1) ltac:(lia)) as G. rewrite <- M1.
      replace (list_sum m) with (list_sum (firstn (S (length m - 1)) m)) by (replace (S (length m - 1)) with (length m) by lia; now rewrite firstn_all).
      rewrite (firstn_S_sum (length m - 1)) by lia. lia. }
    cbn [ax_n]. rewrite expand_length by auto. split; [lia|]. split; [lia|]. split.
    - rewrite (kn_nth _ _ 0%Qc) by (rewrite expand_length by auto; lia). apply expand_nth; auto; lia.
    - rewrite (kn_nth _ _ 0%Qc) by (rewrite expand_length by auto; lia). apply expand_nth; auto; lia. }
  exists s. intros u U1 U2. rewrite <- S3 in U1. rewrite <- S4 in U2. destruct (span_near kv p _ s u W S1 S2 U1 U2) as (r & Hr & N). apply N. replace (u - u)%Qc with 0%Qc by ring. exact Hr.
Qed.
Lemma axis_piece a us x y (b : bool) : axis_knots a us -> In (x, y) (combine us (tl us)) ->
  exists f : nat -> Qc -> Qc, forall i, i < ax_n a -> pol (if b then ax_degree a - 1 else ax_degree a) (f i) /\ forall u, (x < u)%Qc -> (u < y)%Qc -> (if b then ax_dfun a u else ax_fun a u) i = f i u.
Proof.
  intros K H. apply pair_nth in H as (c & Hc & -> & ->). destruct a as [p|p kv].
  - exists (fun i u => (if b then ax_dfun (BezierAxis p) u else ax_fun (BezierAxis p) u) i). intros i Hi. split; [|reflexivity]. cbn [ax_n ax_degree] in *. destruct b; apply (bernstein_pol p i); lia.
  - destruct (axis_span p kv us c K Hc) as (s & Hs). exists (fun i u => if b then dbasis (kn kv) s p i u else basis (kn kv) s p i u). intros i Hi. split.
    + cbn [ax_degree]. destruct b; [apply dbasis_pol|apply basis_pol].
    + intros u U1 U2. destruct b; cbn [ax_dfun ax_fun]; unfold bspline_basis; now rewrite (Hs u U1 U2).
Qed.
Definition piece_degrees (b : nat -> bool) (off : nat) (axes : list paxis) : list nat :=
  map (fun ka => if b (fst ka) then ax_degree (snd ka) - 1 else ax_degree (snd ka)) (combine (seq off (length axes)) axes).
Lemma tensor_piece axes knots (b : nat -> bool) : Forall2 axis_knots axes knots -> forall e, In e (elements knots) -> forall off c,
  exists P, spoly (piece_degrees b off axes) P /\ forall u, within e u ->
    tensor (map (fun kau => let '(k, (a, u)) := kau in (ax_n a, if b k then ax_dfun a u else ax_fun a u)) (combine (seq off (length axes)) (combine axes u))) c = P u.
Proof.
  intros K. induction K as [|a us axes knots Ka K IH]; intros e He off c.
  - exists (fun _ => c []). split; [exact I|]. intros u _. reflexivity.
  - cbn [elements] in He. apply in_flat_map in He as ([x y] & Hxy & He). apply in_map_iff in He as (e' & <- & He').
    destruct (axis_piece a us x y (b off) Ka Hxy) as (f & Hf).
    destruct (choice_nat (fun i P => spoly (piece_degrees b (S off) axes) P /\ forall u, within e' u ->
      tensor (map (fun kau => let '(k, (a, u)) := kau in (ax_n a, if b k then ax_dfun a u else ax_fun a u)) (combine (seq (S off) (length axes)) (combine axes u))) (fun ix => c (i :: ix)) = P u) (fun _ => 0%Qc) (ax_n a)) as (Ps & HPs).
    { intros i Hi. exact (IH e' He' (S off) (fun ix => c (i :: ix))). }
    exists (fun u => match u with [] => 0%Qc | t :: u => qsum (map (fun i => f i t * Ps i u)%Qc (seq 0 (ax_n a))) end). split.
    + split.
      * intros u L. apply pol_sum. intros i Hi. apply in_seq in Hi. apply pol_scale_r. apply Hf. lia.
      * intros t. apply spoly_sum. intros i Hi. apply in_seq in Hi. apply spoly_scale. apply HPs. lia.
    + intros u W. inversion W as [|? t ? u' [T1 T2] W']; subst. cbn [fst snd] in *. cbn [length seq combine map tensor]. apply qsum_ext. intros i Hi. apply in_seq in Hi.
      destruct (Hf i) as [_ Hf2]; [lia|]. rewrite Hf2 by auto. f_equal. apply HPs; [lia|auto].
Qed.
Lemma column_degrees k p n : k < n -> list_sum (map (fun j => if k =? j then p - 1 else p) (seq 0 n)) = n * p - 1.
Proof.
  intros H. assert (forall m, list_sum (map (fun j => if k =? j then p - 1 else p) (seq 0 m)) = if k <? m then (p - 1) + (m - 1) * p else m * p) as X.
  { induction m as [|m IH]; [destruct (Nat.ltb_spec k 0); [lia|reflexivity]|]. rewrite seq_S, map_app, list_sum_app, IH. cbn [map Nat.add list_sum fold_right].
    destruct (Nat.eqb_spec k m) as [->|N].
    - destruct (Nat.ltb_spec m m), (Nat.ltb_spec m (S m)); lia.
    - destruct (Nat.ltb_spec k m), (Nat.ltb_spec k (S m)); try lia. replace (S m - 1) with (S (m - 1)) by lia. lia. }
  rewrite X. destruct (Nat.ltb_spec k n); [|lia]. destruct p as [|p]; [lia|]. destruct n as [|n]; [lia|]. replace (S n - 1) with n by lia. lia.
Qed.
(** The determinant of the derivatives is a polynomial on each element, of degree
    para_dim * degree - 1 along each axis. *)
Lemma det_piece s knots e : sp_weights s = None -> Forall2 axis_knots (sp_axes s) knots -> In e (elements knots) ->
  exists P, spoly (map (fun a => length (sp_axes s) * ax_degree a - 1) (sp_axes s)) P /\ forall u, within e u -> det (length (sp_axes s)) (fun d j => sp_deriv s j u d) = P u.
Proof.
  intros Hw K He. set (n := length (sp_axes s)).
  destruct (choice_nat (fun d (F : nat -> list Qc -> Qc) => forall j, j < n -> spoly (piece_degrees (fun k => k =? j) 0 (sp_axes s)) (F j) /\ forall u, within e u -> sp_deriv s j u d = F j u) (fun _ _ => 0%Qc) n) as (F & HF).
  { intros d Hd. apply (choice_nat (fun j P => spoly (piece_degrees (fun k => k =? j) 0 (sp_axes s)) P /\ forall u, within e u -> sp_deriv s j u d = P u) (fun _ => 0%Qc)). intros j Hj.
    unfold sp_deriv. rewrite Hw. exact (tensor_piece _ _ (fun k => k =? j) K e He 0 (net (sp_res s) (sp_cps s) d)). }
  exists (fun u => det n (fun d j => F d j u)). split.
  - replace (map (fun a => n * ax_degree a - 1) (sp_axes s))
      with (map (fun ka => list_sum (map (fun j => if fst ka =? j then ax_degree (snd ka) - 1 else ax_degree (snd ka)) (seq 0 n))) (combine (seq 0 n) (sp_axes s))).
    + apply det_spoly. intros i j Hi Hj. now apply HF.
    + rewrite <- (combine_split_snd (seq 0 n) (sp_axes s)) at 2 by (now rewrite seq_length). rewrite map_map. apply map_ext_in. intros [k a] Hk. cbn [fst snd]. apply column_degrees.
      apply in_combine_l, in_seq in Hk. lia.
  - intros u W. apply det_ext. intros i j Hi Hj. now apply HF.
Qed.
