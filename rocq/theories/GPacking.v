(** Exact reals: the areas of polygons that do not overlap, inside a set. *)
From Verif Require Import RBase SpecGeom SpecPoly SpecArea GConvex GHull GRay GArea GClip GClipArea GTiling.
Open Scope R_scope.

Lemma sumR_nonneg l : (forall x, In x l -> 0 <= x) -> 0 <= sumR l.
Proof. induction l as [|x l IH]; intros H; cbn; [lra|]. pose proof (H x (or_introl eq_refl)). assert (0 <= sumR l) by (apply IH; intros; apply H; now right). lra. Qed.

Lemma packing_base (S : pt -> Prop) Ts As A : Forall convex_ccw Ts -> disjoint Ts ->
  (forall t e, In t Ts -> In e (poly_edges t) -> one_side S e) ->
  area_of S A -> Forall2 (fun t a => area_of (fun p => S p /\ hull t p) a) Ts As -> sumR As <= A.
Proof.
  intros HT HD HS HA HAs. pose proof (area_of_nonneg _ _ HA) as HA0.
  assert (Hall : (forall a, In a As -> a = 0) \/ exists i a, nth_error As i = Some a /\ 0 < a).
  { assert (Hn : forall a, In a As -> 0 <= a).
    { intros a Ha. apply In_nth_error in Ha as (i & Hi). destruct (forall2_nth _ _ _ HAs i a Hi) as (t & _ & Hta). exact (area_of_nonneg _ _ Hta). }
    clear - Hn. induction As as [|x As IH]; [left; intros a []|].
    destruct (Rle_lt_or_eq_dec 0 x (Hn x (or_introl eq_refl))) as [H|H]; [right; exists O, x; auto|].
    destruct IH as [G|(i & a & G)]; [intros; apply Hn; now right| |right; exists (Datatypes.S i), a; auto].
    left. intros a [<-|Ha]; auto. }
  destruct Hall as [Z|(i & a & Hi & Hpos)].
  { replace (sumR As) with 0; auto. symmetry. rewrite <- (map_id As). now apply sumR_map_zero. }
  destruct (forall2_nth _ _ _ HAs i a Hi) as (t & Ht & Hta).
  pose proof (proj1 (Forall_forall _ _) HT t (nth_error_In _ _ Ht)) as Ct.
  destruct Hta as [(K & HC & HK & Ea)|(_ & ->)]; [|lra].
  destruct (interior_exists K HC) as (p & Hp).
  assert (Htp : interior t p) by (apply (interior_sub K t p); auto; intros q Hq; now apply HK).
  assert (Sub : forall q, S q -> hull t q).
  { intros q Hq. apply in_poly_hull; auto. intros u v He.
    destruct (HS t (u, v) (nth_error_In _ _ Ht) He) as [G|G]; cbn [fst snd] in G; [now apply G|]. exfalso.
    pose proof (Htp u v He) as O. pose proof (G p) as O2.
    assert (Sp : S p) by (apply (proj1 (HK p)), in_poly_hull; auto; now apply interior_in_poly). specialize (O2 Sp). lra. }
  assert (EA : a = A).
  { apply (area_of_unique S); auto. left. exists K. split; auto. split; auto. intros q. rewrite HK. split; [tauto|auto]. }
  right. rewrite <- EA. apply (sum_one As i); auto.
  intros j b Hb Hji. destruct (forall2_nth _ _ _ HAs j b Hb) as (t' & Ht' & Hb').
  destruct Hb' as [(K' & HC' & HK' & _)|(_ & ->)]; auto. exfalso.
  assert (Ct' : convex_ccw t') by (apply (proj1 (Forall_forall _ _) HT), (nth_error_In _ j), Ht').
  destruct (interior_exists K' HC') as (q & Hq).
  apply (HD i j t t' q Ht Ht' (not_eq_sym Hji)).
  - apply (interior_sub K' t q); auto. intros q' Hq'. apply Sub. now apply HK'.
  - apply (interior_sub K' t' q); auto. intros q' Hq'. now apply HK'.
Qed.

Lemma packing_lines : forall L (S : pt -> Prop) Ts As A, (forall u v, In (u, v) L -> u <> v) -> Forall convex_ccw Ts -> disjoint Ts ->
  (forall t e, In t Ts -> In e (poly_edges t) -> In e L \/ one_side S e) ->
  area_of S A -> Forall2 (fun t a => area_of (fun p => S p /\ hull t p) a) Ts As -> sumR As <= A.
Proof.
  induction L as [|(r, s) L IH]; intros S Ts As A HN HT HD HS HA HAs.
  - apply (packing_base S Ts As A HT HD); auto. intros t e Ht He. destruct (HS t e Ht He) as [[]|]; auto.
  - assert (Hrs : r <> s) by (apply HN; now left).
    pose proof (area_region S A HA) as RS.
    set (S1 := fun p => S p /\ 0 <= orient r s p). set (S2 := fun p => S p /\ orient r s p <= 0).
    assert (R1 : region S1) by (apply region_cut; auto).
    assert (R2 : region S2).
    { eapply region_ext; [|apply (region_cut S s r RS (not_eq_sym Hrs))]. intros p. cbn beta. unfold S2. rewrite orient_opp.
      split; intros (? & ?); split; auto; lra. }
    destruct (region_area S1 R1) as (A1 & HA1). destruct (region_area S2 R2) as (A2 & HA2).
    assert (EX : forall S', region S' -> exists As', Forall2 (fun t a => area_of (fun p => S' p /\ hull t p) a) Ts As').
    { intros S' HR. clear - HR HT. induction HT as [|t Ts Ht HT IH]; [exists []; constructor|].
      destruct IH as (As' & H). destruct (region_area _ (region_meet S' t HR Ht)) as (a & Ha). exists (a :: As'). now constructor. }
    destruct (EX S1 R1) as (As1 & HAs1). destruct (EX S2 R2) as (As2 & HAs2).
    assert (HN' : forall u v, In (u, v) L -> u <> v) by (intros u v H; apply HN; now right).
    assert (E1 : sumR As1 <= A1).
    { apply (IH S1 Ts As1 A1 HN' HT HD); auto. intros t e Ht He. destruct (HS t e Ht He) as [[<-|Hin]|[G|G]]; auto.
      + right. left. intros p (_ & Hp). exact Hp.
      + right. left. intros p (Hp & _). auto.
      + right. right. intros p (Hp & _). auto. }
    assert (E2 : sumR As2 <= A2).
    { apply (IH S2 Ts As2 A2 HN' HT HD); auto. intros t e Ht He. destruct (HS t e Ht He) as [[<-|Hin]|[G|G]]; auto.
      + right. right. intros p (_ & Hp). exact Hp.
      + right. left. intros p (Hp & _). auto.
      + right. right. intros p (Hp & _). auto. }
    rewrite (cut_additive S r s A A1 A2 Hrs HA HA1 HA2).
    assert (ES : sumR As = sumR As1 + sumR As2); [|lra].
    clear - Hrs HAs HAs1 HAs2. revert As1 As2 HAs1 HAs2. induction HAs as [|t a Ts As Ha HAs IH]; intros As1 As2 H1 H2.
    + inversion H1; inversion H2; subst. cbn. lra.
    + inversion H1 as [|? a1 ? As1' Ha1 H1']; subst. inversion H2 as [|? a2 ? As2' Ha2 H2']; subst. cbn.
      rewrite (IH As1' As2' H1' H2').
      assert (a = a1 + a2); [|lra]. apply (cut_additive (fun p => S p /\ hull t p) r s); auto.
      * eapply area_of_ext; [|exact Ha1]. intros p. unfold S1. tauto.
      * eapply area_of_ext; [|exact Ha2]. intros p. unfold S2. tauto.
Qed.

(** the parts of a set in polygons that do not overlap are together no larger than the set *)
Theorem packing_area (S : pt -> Prop) Ts As A : Forall convex_ccw Ts -> disjoint Ts ->
  area_of S A -> Forall2 (fun t a => area_of (fun p => S p /\ hull t p) a) Ts As -> sumR As <= A.
Proof.
  intros HT HD HA HAs. apply (packing_lines (flat_map poly_edges Ts) S Ts As A); auto.
  - intros u v H. apply in_flat_map in H as (t & Ht & He). apply (convex_edge_ne t); auto. now apply (proj1 (Forall_forall _ _) HT).
  - intros t e Ht He. left. apply in_flat_map. eauto.
Qed.
