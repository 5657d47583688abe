(** Deciding [clear_corners] for polygons with rational coordinates: the corners
    of what is left are the vertices of the exactly clipped polygon. *)
From Coq Require Import Reals Lra QArith Qabs Qreals Qminmax.
From Verif Require Import RBase SpecPoly SpecArea SpecClear GTriangle GConvex GHull GArea GClip GStage.
Open Scope R_scope.

(** a corner of a hull is one of the points *)
Lemma corner_hull : forall vs x, corner (hull vs) x -> In x vs.
Proof.
  induction vs as [|v vs IH]; intros x ((ws & Hl & Hw & Hs & E) & HC).
  - destruct ws; [|discriminate]. cbn in Hs. lra.
  - destruct ws as [|w ws]; [discriminate|]. cbn [length] in Hl. apply Forall_cons_iff in Hw as (Pw & Hw). cbn [sumR] in Hs.
    assert (Sub : forall p, hull vs p -> hull (v :: vs) p).
    { intros p (us & L & N & S & Ep). exists (0 :: us). cbn [length sumR]. split; [lia|]. split; [constructor; [lra|auto]|]. split; [lra|].
      rewrite Ep. unfold comb. cbn [combine map sumR fst snd]. f_equal; ring. }
    assert (Hv : hull (v :: vs) v) by (apply hull_vertex; now left).
    destruct (Req_dec w 1) as [->|N1].
    + left. rewrite E. assert (Z : forall u, In u ws -> u = 0).
      { assert (S0 : sumR ws = 0) by lra. clear - Hw S0. induction ws as [|u ws IH]; intros u' []; apply Forall_cons_iff in Hw as (Pu & Hw); cbn in S0.
        - subst. assert (0 <= sumR ws). { clear - Hw. induction Hw; cbn; lra. } lra.
        - assert (0 <= sumR ws). { clear - Hw. induction Hw; cbn; lra. } apply IH; auto. lra. }
      assert (G : forall (F : pt -> R) l, sumR (map (fun wv => fst wv * F (snd wv)) (combine ws l)) = 0).
      { intros F. clear - Z. induction ws as [|u ws IH]; intros [|y l]; cbn; auto. rewrite (Z u) by now left. rewrite IH by (intros u' H; apply Z; now right). lra. }
      unfold comb. cbn [combine map sumR fst snd]. rewrite (G px), (G py). destruct v as [a b]. cbn [px py]. f_equal; ring.
    + set (us := map (fun u => u / (1 - w)) ws).
      assert (PN : 0 <= sumR ws). { clear - Hw. induction Hw; cbn; lra. }
      assert (L1 : w < 1) by lra.
      assert (SU : sumR us = 1).
      { assert (K : forall l, sumR (map (fun u => u / (1 - w)) l) = sumR l / (1 - w)).
        { induction l as [|u l IHl]; cbn [map sumR]; [field; lra|]. rewrite IHl. field. lra. }
        unfold us. rewrite K. replace (sumR ws) with (1 - w) by lra. field. lra. }
      assert (CU : forall F : pt -> R, sumR (map (fun wv => fst wv * F (snd wv)) (combine us vs)) = sumR (map (fun wv => fst wv * F (snd wv)) (combine ws vs)) / (1 - w)).
      { intros F. unfold us. clear - L1. revert vs. induction ws as [|u ws IHw]; intros [|y vs]; cbn [map combine sumR fst snd]; try (field; lra). rewrite IHw. field. lra. }
      set (y := comb us vs).
      assert (Hy : hull vs y).
      { exists us. split; [unfold us; rewrite map_length; lia|]. split; [|split; auto]. unfold us. apply Forall_map.
        eapply Forall_impl; [|exact Hw]. intros u Hu. apply Rmult_le_pos; auto. left. apply Rinv_0_lt_compat. lra. }
      assert (Ex : x = at_ v y (1 - w)).
      { rewrite E. unfold y, comb, at_. cbn [combine map sumR fst snd px py]. rewrite !CU. f_equal; field; lra. }
      destruct (Req_dec w 0) as [->|N0].
      * right. apply IH. assert (Exy : x = y) by (rewrite Ex; replace (1 - 0) with 1 by ring; apply at_1).
        split; [rewrite Exy; exact Hy|]. intros p q t Hp Hq. apply HC; auto.
      * assert (v = y) by (apply (HC v y (1 - w)); auto; lra). subst v. left. rewrite Ex. assert (AA : forall (p : pt) t, p = at_ p p t) by (intros [c e] t; unfold at_; cbn [px py]; f_equal; ring). apply AA.
Qed.

Lemma hull_out (r s : pt) vs p : (forall w, In w vs -> orient r s w < 0) -> hull vs p -> orient r s p < 0.
Proof.
  intros Hv (ws & Hl & Hw & Hs & ->).
  set (A := - (py s - py r)). set (B := px s - px r). set (C := - (B * py r) - A * px r).
  assert (EA : forall p, orient r s p = aff A B C p) by (intros p; unfold orient, aff, C, B, A; ring).
  rewrite EA, comb_aff by auto.
  assert (K : forall vs, (forall w, In w vs -> orient r s w < 0) -> forall ws, length ws = length vs -> Forall (fun w => 0 <= w) ws ->
    wsum (aff A B C) ws vs <= 0 /\ (0 < sumR ws -> wsum (aff A B C) ws vs < 0)).
  { clear - EA. induction vs as [|y vs IH]; intros Hv [|w ws] Hl Hw; try discriminate; [cbn; unfold wsum; cbn; lra|].
    apply Forall_cons_iff in Hw as (Pw & Hw). destruct (IH (fun w' H' => Hv w' (or_intror H')) ws ltac:(cbn in Hl; lia) Hw) as (I1 & I2).
    rewrite wsum_cons. cbn [sumR]. pose proof (Hv y (or_introl eq_refl)) as Y. rewrite EA in Y.
    assert (0 <= w * - aff A B C y) by (apply Rmult_le_pos; lra).
    split; [lra|]. intros Ps. destruct Pw as [Pw|<-].
    - assert (0 < w * - aff A B C y) by (apply Rmult_lt_0_compat; lra). lra.
    - rewrite Rplus_0_l in Ps. specialize (I2 Ps). lra. }
  apply (K vs Hv ws Hl Hw). lra.
Qed.

(** ** Rational coordinates *)
Definition qpt := (Q * Q)%type.
Definition toR (p : qpt) : pt := Pt (Q2R (fst p)) (Q2R (snd p)).
Definition orientQ (r s p : qpt) : Q :=
  ((fst s - fst r) * (snd p - snd r) - (snd s - snd r) * (fst p - fst r))%Q.
Definition sizeQ (u v : qpt) : Q := Qmax (Qabs (fst v - fst u)) (Qabs (snd v - snd u)).
Definition insQ (r s p : qpt) : bool := negb (Qle_bool (orientQ r s p) 0).
Definition cutQ (r s u v : qpt) : qpt :=
  let t := (orientQ r s u / (orientQ r s u - orientQ r s v))%Q in
  (Qred (fst u + t * (fst v - fst u)), Qred (snd u + t * (snd v - snd u))).
Definition sheQ (r s : qpt) (e : qpt * qpt) : list qpt :=
  if insQ r s (snd e) then (if insQ r s (fst e) then [snd e] else [cutQ r s (fst e) (snd e); snd e])
  else if insQ r s (fst e) then [cutQ r s (fst e) (snd e)] else [].
Fixpoint chainQ (v0 : qpt) (l : list qpt) : list (qpt * qpt) :=
  match l with [] => [] | v :: t => (v0, v) :: chainQ v t end.
Definition shQ (r s : qpt) (K : list qpt) : list qpt := flat_map (sheQ r s) (chainQ (last K (0%Q, 0%Q)) K).
Fixpoint clearQ (d : Q) (E : list (qpt * qpt)) (K : list qpt) : bool :=
  match E with
  | [] => true
  | (u, v) :: E => negb (Qle_bool (d * sizeQ u v) 0) && forallb (fun x => Qle_bool (d * sizeQ u v) (Qabs (orientQ u v x))) K && clearQ d E (shQ u v K)
  end.

Lemma Qle_R x y : Qle_bool x y = true <-> Q2R x <= Q2R y.
Proof. rewrite Qle_bool_iff. split; [apply Qle_Rle|apply Rle_Qle]. Qed.
Lemma Qle_R_false x y : Qle_bool x y = false <-> Q2R y < Q2R x.
Proof. pose proof (Qle_R x y). destruct (Qle_bool x y); split; intros; try discriminate; try reflexivity; destruct H as (H1 & H2); [specialize (H1 eq_refl); lra|]. destruct (Rlt_le_dec (Q2R y) (Q2R x)); auto. specialize (H2 r). discriminate. Qed.
Lemma Q2R_abs x : Q2R (Qabs x) = Rabs (Q2R x).
Proof.
  destruct (Qlt_le_dec x 0) as [C|C].
  - rewrite (Qeq_eqR _ _ (Qabs_neg x (Qlt_le_weak _ _ C))), Q2R_opp. apply Qlt_Rlt in C. rewrite RMicromega.Q2R_0 in C. rewrite Rabs_left; lra.
  - rewrite (Qeq_eqR _ _ (Qabs_pos x C)). apply Qle_Rle in C. rewrite RMicromega.Q2R_0 in C. rewrite Rabs_pos_eq; lra.
Qed.
Lemma Q2R_max x y : Q2R (Qmax x y) = Rmax (Q2R x) (Q2R y).
Proof.
  destruct (Qlt_le_dec x y) as [C|C].
  - apply Qlt_le_weak in C. rewrite (Qeq_eqR _ _ (Q.max_r _ _ C)). apply Qle_Rle in C. now rewrite Rmax_right.
  - rewrite (Qeq_eqR _ _ (Q.max_l _ _ C)). apply Qle_Rle in C. now rewrite Rmax_left.
Qed.
Lemma orientQ_R r s p : Q2R (orientQ r s p) = orient (toR r) (toR s) (toR p).
Proof. unfold orientQ, orient, toR. cbn [px py]. now rewrite !Q2R_minus, !Q2R_mult, !Q2R_minus. Qed.
Lemma sizeQ_R u v : Q2R (sizeQ u v) = side_size (toR u) (toR v).
Proof. unfold sizeQ, side_size, toR. cbn [px py]. now rewrite Q2R_max, !Q2R_abs, !Q2R_minus. Qed.
Lemma insQ_R r s p : insQ r s p = ins (toR r) (toR s) (toR p).
Proof.
  unfold insQ. destruct (Qle_bool (orientQ r s p) 0) eqn:E; cbn [negb]; symmetry.
  - apply Qle_R in E. rewrite RMicromega.Q2R_0, orientQ_R in E. now apply ins_false.
  - apply Qle_R_false in E. rewrite RMicromega.Q2R_0, orientQ_R in E. now apply ins_iff.
Qed.
Lemma cutQ_R r s u v : insQ r s u <> insQ r s v -> toR (cutQ r s u v) = cutp (toR r) (toR s) (toR u) (toR v).
Proof.
  intros H. assert (D : Q2R (orientQ r s u) - Q2R (orientQ r s v) <> 0).
  { rewrite !insQ_R in H. rewrite !orientQ_R.
    destruct (ins (toR r) (toR s) (toR u)) eqn:A, (ins (toR r) (toR s) (toR v)) eqn:B; try congruence.
    - apply ins_iff in A. apply ins_false in B. lra.
    - apply ins_iff in B. apply ins_false in A. lra. }
  assert (Dq : ~ (orientQ r s u - orientQ r s v == 0)%Q).
  { intros E. apply Qeq_eqR in E. rewrite Q2R_minus, RMicromega.Q2R_0 in E. contradiction. }
  unfold cutQ, cutp, at_, toR. cbn [fst snd px py]. rewrite !(Qeq_eqR _ _ (Qred_correct _)).
  rewrite !Q2R_plus, !Q2R_mult, !Q2R_minus, !Q2R_div, !Q2R_minus by auto. now rewrite !orientQ_R.
Qed.
Lemma chainQ_R : forall l v, chain (toR v) (map toR l) = map (fun e => (toR (fst e), toR (snd e))) (chainQ v l).
Proof. induction l as [|x l IH]; intros v; cbn; auto. now rewrite IH. Qed.
Lemma last_map_toR K : last (map toR K) (Pt 0 0) = toR (last K (0%Q, 0%Q)).
Proof.
  destruct K as [|x K] using rev_ind; [cbn; unfold toR; cbn; now rewrite RMicromega.Q2R_0|].
  rewrite map_app. cbn [map]. now rewrite !last_last.
Qed.
Lemma edgesQ_R K : poly_edges (map toR K) = map (fun e => (toR (fst e), toR (snd e))) (chainQ (last K (0%Q, 0%Q)) K).
Proof. unfold poly_edges. rewrite last_map_toR. apply chainQ_R. Qed.

Lemma shQ_R r s K : (forall u v, In (u, v) (poly_edges (map toR K)) -> u <> v) -> map toR (shQ r s K) = sh (toR r) (toR s) (map toR K).
Proof.
  unfold sh, shQ. rewrite edgesQ_R. induction (chainQ (last K (0%Q, 0%Q)) K) as [|(u, v) E IH]; intros H; [reflexivity|].
  cbn [flat_map map fst snd]. rewrite map_app, IH by (intros u' v' H'; apply H; now right). f_equal.
  assert (N : toR u <> toR v) by (apply H; now left).
  unfold she, sheQ. destruct (neqe_cases (toR u) (toR v)) as [(Q & _)|(_ & ->)]; [contradiction|]. cbn [fst snd].
  rewrite <- !insQ_R. destruct (insQ r s v) eqn:Iv, (insQ r s u) eqn:Iu; cbn [map]; auto; rewrite cutQ_R by congruence; auto.
Qed.

Definition stays (d : R) (E : list (pt * pt)) (S : pt -> Prop) : Prop :=
  forall pre u v post, E = pre ++ (u, v) :: post ->
  forall x, corner (fun p => S p /\ forall u' v', In (u', v') pre -> 0 <= orient u' v' p) x -> d * side_size u v <= Rabs (orient u v x).

Lemma clearQ_ok d : forall E K (S : pt -> Prop),
  (K = [] /\ (forall p, ~ S p)) \/ (convex_ccw (map toR K) /\ forall p, S p <-> in_poly (map toR K) p) ->
  clearQ d E K = true -> stays (Q2R d) (map (fun e => (toR (fst e), toR (snd e))) E) S.
Proof.
  induction E as [|(u, v) E IH]; intros K S HS HC pre u0 v0 post Epre x Hx; [destruct pre; discriminate|].
  cbn [clearQ] in HC. apply andb_true_iff in HC as (HC & HE). apply andb_true_iff in HC as (Hp & HK).
  apply negb_true_iff, Qle_R_false in Hp. rewrite RMicromega.Q2R_0, Q2R_mult, sizeQ_R in Hp.
  destruct HS as [(-> & HS)|(Cv & HS)]; [exfalso; apply (HS x); apply Hx|].
  rewrite forallb_forall in HK.
  assert (VK : forall w, In w (map toR K) -> Q2R d * side_size (toR u) (toR v) <= Rabs (orient (toR u) (toR v) w)).
  { intros w Hw. apply in_map_iff in Hw as (q & <- & Hq). specialize (HK q Hq). apply Qle_R in HK. now rewrite Q2R_mult, sizeQ_R, Q2R_abs, orientQ_R in HK. }
  assert (NE : forall a b, In (a, b) (poly_edges (map toR K)) -> a <> b).
  { intros a b Hab. destruct Cv as (L & N & _). apply (edges_neq _ a b N); [lia|exact Hab]. }
  cbn [map fst snd] in Epre. destruct pre as [|e0 pre]; cbn [app] in Epre; injection Epre as E1 E2.
  - intros. subst u0 v0. apply VK. apply corner_hull. destruct Hx as ((Sx & _) & HX). split; [apply (in_poly_hull _ x Cv); now apply HS|].
    intros p q t Pp Pq. apply HX; (split; [apply HS; now apply (in_poly_hull _ _ Cv)|intros ? ? []]).
  - subst e0. eapply (IH (shQ u v K) (fun p => S p /\ 0 <= orient (toR u) (toR v) p)); [|exact HE|exact E2|].
    + destruct (sh_clear (toR u) (toR v) (map toR K) Cv) as [(SE & Sout)|(CQ & _ & RQ)].
      * intros w Hw E0. specialize (VK w Hw). rewrite E0, Rabs_R0 in VK. lra.
      * left. rewrite <- shQ_R in SE by auto. split; [destruct (shQ u v K); [auto|discriminate]|].
        intros p (Sp & Fp). apply HS, (in_poly_hull _ p Cv) in Sp. pose proof (hull_out (toR u) (toR v) _ p Sout Sp). lra.
      * right. rewrite shQ_R by auto. split; auto. intros p. rewrite RQ, HS. reflexivity.
    + destruct Hx as ((Sx & Px) & HX). split.
      * split; [split; [auto|apply Px; now left]|]. intros u' v' H'. apply Px. now right.
      * intros p q t ((P1 & P2) & P3) ((Q1 & Q2) & Q3). apply HX.
        -- split; auto. intros u' v' [E'|H']; [injection E' as <- <-; auto|auto].
        -- split; auto. intros u' v' [E'|H']; [injection E' as <- <-; auto|auto].
Qed.

Theorem clear_check d a b : convex_ccw (map toR a) -> clearQ d (chainQ (last b (0%Q, 0%Q)) b) a = true ->
  clear_corners (Q2R d) (map toR a) (map toR b).
Proof.
  intros Ca HC pre u v post E x Hx. rewrite edgesQ_R in E.
  apply (clearQ_ok d _ a (hull (map toR a)) (or_intror (conj Ca (fun p => iff_sym (in_poly_hull _ p Ca)))) HC pre u v post E x Hx).
Qed.

(** ** The exact area, for the same polygons *)
Fixpoint runQ (E : list (qpt * qpt)) (K : list qpt) : list qpt :=
  match E with [] => K | (u, v) :: E => runQ E (shQ u v K) end.
Definition sumQ (l : list Q) : Q := fold_right Qplus 0%Q l.
Definition shoeQ (K : list qpt) : Q :=
  ((1 # 2) * sumQ (map (fun e => fst (fst e) * snd (snd e) - fst (snd e) * snd (fst e)) (chainQ (last K (0, 0)) K)))%Q.

Lemma shoeQ_R K : Q2R (shoeQ K) = shoelace (map toR K).
Proof.
  unfold shoeQ, shoelace. rewrite Q2R_mult, edgesQ_R. f_equal; [unfold Q2R; cbn; lra|].
  induction (chainQ _ _) as [|((a, b), (c, d)) E IH]; cbn [map sumR sumQ fold_right fst snd]; [apply RMicromega.Q2R_0|].
  rewrite Q2R_plus. unfold sumQ in IH. rewrite IH. f_equal. rewrite Q2R_minus, !Q2R_mult. reflexivity.
Qed.

Lemma runQ_ok d : forall E K (S : pt -> Prop),
  (K = [] /\ (forall p, ~ S p)) \/ (convex_ccw (map toR K) /\ forall p, S p <-> in_poly (map toR K) p) ->
  clearQ d E K = true ->
  let S' := fun p => S p /\ forall u v, In (u, v) E -> 0 <= orient (toR u) (toR v) p in
  (runQ E K = [] /\ (forall p, ~ S' p)) \/ (convex_ccw (map toR (runQ E K)) /\ forall p, S' p <-> in_poly (map toR (runQ E K)) p).
Proof.
  induction E as [|(u, v) E IH]; intros K S HS HC; cbn beta zeta.
  - cbn [runQ]. destruct HS as [(A & B)|(A & B)]; [left|right]; (split; [exact A|]).
    + intros p (H & _). exact (B p H).
    + intros p. rewrite <- B. split; [tauto|]. intros H. split; [exact H|intros ? ? []].
  - cbn [runQ]. cbn [clearQ] in HC. apply andb_true_iff in HC as (HC & HE). apply andb_true_iff in HC as (Hp & HK).
    apply negb_true_iff, Qle_R_false in Hp. rewrite RMicromega.Q2R_0, Q2R_mult, sizeQ_R in Hp. rewrite forallb_forall in HK.
    assert (HS1 : (shQ u v K = [] /\ (forall p, ~ (S p /\ 0 <= orient (toR u) (toR v) p)))
      \/ (convex_ccw (map toR (shQ u v K)) /\ forall p, S p /\ 0 <= orient (toR u) (toR v) p <-> in_poly (map toR (shQ u v K)) p)).
    { destruct HS as [(-> & B)|(Cv & B)].
      - left. split; [reflexivity|]. intros p (H & _). exact (B p H).
      - assert (NE : forall a b, In (a, b) (poly_edges (map toR K)) -> a <> b).
        { intros a b Hab. destruct Cv as (L & N & _). apply (edges_neq _ a b N); [lia|exact Hab]. }
        rewrite shQ_R by exact NE.
        destruct (sh_clear (toR u) (toR v) (map toR K) Cv) as [(SE & Sout)|(CQ & _ & RQ)].
        + intros w Hw E0. apply in_map_iff in Hw as (q & <- & Hq). specialize (HK q Hq). apply Qle_R in HK.
          rewrite Q2R_mult, sizeQ_R, Q2R_abs, orientQ_R, E0, Rabs_R0 in HK. lra.
        + left. rewrite <- shQ_R in SE by exact NE. split; [destruct (shQ u v K); [reflexivity|discriminate]|].
          intros p (Sp & Fp). apply B, (in_poly_hull _ p Cv) in Sp. pose proof (hull_out (toR u) (toR v) _ p Sout Sp). lra.
        + right. split; [exact CQ|]. intros p. rewrite RQ, B. reflexivity. }
    destruct (IH _ _ HS1 HE) as [(A & B)|(A & B)]; [left|right]; (split; [exact A|]).
    + intros p (H & H'). apply (B p). split; [split; [exact H|apply H'; now left]|]. intros u' v' Hi. apply H'. now right.
    + intros p. rewrite <- B. split.
      * intros (H & H'). split; [split; [exact H|apply H'; now left]|]. intros u' v' Hi. apply H'. now right.
      * intros ((H & H1) & H'). split; [exact H|]. intros u' v' [Ei|Hi]; [injection Ei as <- <-; exact H1|now apply H'].
Qed.

Theorem area_check d a b : convex_ccw (map toR a) -> convex_ccw (map toR b) -> clearQ d (chainQ (last b (0%Q, 0%Q)) b) a = true ->
  area_of (fun p => hull (map toR a) p /\ hull (map toR b) p) (Q2R (shoeQ (runQ (chainQ (last b (0%Q, 0%Q)) b) a))).
Proof.
  intros Ca Cb HC.
  assert (HB : forall p, hull (map toR b) p <-> forall u v, In (u, v) (chainQ (last b (0%Q, 0%Q)) b) -> 0 <= orient (toR u) (toR v) p).
  { intros p. rewrite <- (in_poly_hull _ p Cb). unfold in_poly. rewrite edgesQ_R. split.
    - intros H u v Hi. apply H. apply in_map_iff. exists (u, v). split; [reflexivity|exact Hi].
    - intros H u v Hi. apply in_map_iff in Hi as ((u', v') & E & Hi). injection E as <- <-. now apply H. }
  destruct (runQ_ok d _ a (hull (map toR a)) (or_intror (conj Ca (fun p => iff_sym (in_poly_hull _ p Ca)))) HC) as [(E & N)|(CK & EK)].
  - right. split.
    + exists (Pt 0 0), (Pt 1 0). split; [intros H; injection H; lra|]. intros p (H1 & H2). exfalso. apply (N p). split; [exact H1|now apply HB].
    + rewrite E. unfold shoeQ. cbn. unfold Q2R. cbn. lra.
  - left. exists (map toR (runQ (chainQ (last b (0%Q, 0%Q)) b) a)). split; [exact CK|]. split; [|apply shoeQ_R].
    intros p. rewrite <- (in_poly_hull _ p CK), <- EK, HB. reflexivity.
Qed.
