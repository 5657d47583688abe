(** Area is additive: cutting by a line, and tilings. *)
From Verif Require Import RBase SpecPoly SpecArea GTriangle GConvex GHull GArea GClip GClipArea.
From Coq Require Import Permutation.
Open Scope R_scope.

Lemma sumR_map_plus {A} (F G : A -> R) l : sumR (map (fun x => F x + G x) l) = sumR (map F l) + sumR (map G l).
Proof. induction l as [|x l IH]; cbn; [lra|]. rewrite IH. lra. Qed.
Lemma sumR_map_ext {A} (F G : A -> R) l : (forall x, In x l -> F x = G x) -> sumR (map F l) = sumR (map G l).
Proof. induction l as [|x l IH]; cbn; intros H; [lra|]. rewrite IH by auto. rewrite H by auto. lra. Qed.
Lemma sumR_map_zero {A} (F : A -> R) l : (forall x, In x l -> F x = 0) -> sumR (map F l) = 0.
Proof. induction l as [|x l IH]; cbn; intros H; [lra|]. rewrite IH by auto. rewrite H by auto. lra. Qed.

Section Line.
  Variables r s : pt.
  Hypothesis Hrs : r <> s.
  Notation f := (orient r s).

  Definition tau (p : pt) : R :=
    ((px p - px r) * (px s - px r) + (py p - py r) * (py s - py r))
    / ((px s - px r) * (px s - px r) + (py s - py r) * (py s - py r)).
  Definition lam (p : pt) : R := cr (r, s) * tau p.

  Lemma dir_pos : 0 < (px s - px r) * (px s - px r) + (py s - py r) * (py s - py r).
  Proof.
    pose proof (Rle_0_sqr (px s - px r)) as A. pose proof (Rle_0_sqr (py s - py r)) as B. unfold Rsqr in *.
    destruct (Req_dec (px s - px r) 0) as [E1|E1].
    - destruct (Req_dec (py s - py r) 0) as [E2|E2].
      + exfalso. apply Hrs. now apply diff_zero.
      + pose proof (Rsqr_pos_lt _ E2) as P. unfold Rsqr in P. lra.
    - pose proof (Rsqr_pos_lt _ E1) as P. unfold Rsqr in P. lra.
  Qed.

  Lemma on_line p : f p = 0 -> px p = px r + tau p * (px s - px r) /\ py p = py r + tau p * (py s - py r).
  Proof.
    intros H. pose proof dir_pos as D. unfold orient in H. unfold tau.
    set (dx := px s - px r) in *. set (dy := py s - py r) in *.
    split; apply (Rmult_eq_reg_r (dx * dx + dy * dy)); try lra.
    - replace ((px r + ((px p - px r) * dx + (py p - py r) * dy) / (dx * dx + dy * dy) * dx) * (dx * dx + dy * dy))
        with (px r * (dx * dx + dy * dy) + ((px p - px r) * dx + (py p - py r) * dy) * dx) by (field; lra).
      assert (E : dy * (dx * (py p - py r) - dy * (px p - px r)) = 0) by (rewrite H; ring). lra.
    - replace ((py r + ((px p - px r) * dx + (py p - py r) * dy) / (dx * dx + dy * dy) * dy) * (dx * dx + dy * dy))
        with (py r * (dx * dx + dy * dy) + ((px p - px r) * dx + (py p - py r) * dy) * dy) by (field; lra).
      assert (E : dx * (dx * (py p - py r) - dy * (px p - px r)) = 0) by (rewrite H; ring). lra.
  Qed.

  Lemma cr_line p q : f p = 0 -> f q = 0 -> cr (p, q) = lam q - lam p.
  Proof.
    intros Hp Hq. destruct (on_line p Hp) as (A1 & A2). destruct (on_line q Hq) as (B1 & B2).
    unfold lam, cr. cbn [fst snd]. rewrite A1, A2, B1, B2. ring.
  Qed.

  Definition cutg (g : pt -> R) (u v : pt) : pt := at_ u v (g u / (g u - g v)).
  Definition W (g : pt -> R) (e : pt * pt) : R :=
    let c := cutg g (fst e) (snd e) in
    if Rlt_bool 0 (g (fst e)) then
      if Rlt_bool 0 (g (snd e)) then cr e else cr (fst e, c) - lam c
    else if Rlt_bool 0 (g (snd e)) then cr (c, snd e) + lam c else 0.

  Definition z (p : pt) : R := if Req_bool (f p) 0 then lam p else 0.

  Lemma cr_at u v t : cr (u, at_ u v t) + cr (at_ u v t, v) = cr (u, v).
  Proof. unfold cr, at_. cbn. ring. Qed.

  Lemma cutg_opp u v : f u <> f v -> cutg (fun p => - f p) u v = cutg f u v.
  Proof. intros H. unfold cutg. f_equal. field. split; lra. Qed.

  Lemma cut_at_0 u v : f u = 0 -> f v <> 0 -> cutg f u v = u.
  Proof. intros H1 H2. unfold cutg. rewrite H1. replace (0 / (0 - f v)) with 0 by (field; lra). apply at_0. Qed.
  Lemma cut_at_1 u v : f v = 0 -> f u <> 0 -> cutg f u v = v.
  Proof. intros H1 H2. unfold cutg. rewrite H1. replace (f u / (f u - 0)) with 1 by (field; lra). apply at_1. Qed.
  Lemma cr_same u : cr (u, u) = 0. Proof. unfold cr. cbn. ring. Qed.

  Lemma W_sum e : W f e + W (fun p => - f p) e = cr e + z (fst e) - z (snd e).
  Proof.
    destruct e as (u, v). cbn [fst snd]. unfold W, z. cbn [fst snd].
    destruct (Rlt_bool_spec 0 (f u)) as [A|A]; destruct (Rlt_bool_spec 0 (f v)) as [B|B];
    destruct (Rlt_bool_spec 0 (- f u)) as [C|C]; destruct (Rlt_bool_spec 0 (- f v)) as [D|D]; try lra.
    - rewrite !Req_bool_false by lra. lra.
    - rewrite !Req_bool_false by lra. rewrite cutg_opp by lra. unfold cutg.
      pose proof (cr_at u v (f u / (f u - f v))). lra.
    - rewrite (Req_bool_false (f u)) by lra. rewrite Req_bool_true by lra. rewrite cut_at_1 by lra. lra.
    - rewrite !Req_bool_false by lra. rewrite cutg_opp by lra. unfold cutg.
      pose proof (cr_at u v (f u / (f u - f v))). lra.
    - rewrite (Req_bool_false (f v)) by lra. rewrite Req_bool_true by lra. rewrite cut_at_0 by lra. lra.
    - rewrite !Req_bool_false by lra. lra.
    - rewrite (Req_bool_false (f u)) by lra. rewrite Req_bool_true by lra. rewrite cutg_opp by lra. rewrite cut_at_1 by lra. lra.
    - rewrite (Req_bool_false (f v)) by lra. rewrite Req_bool_true by lra. rewrite cutg_opp by lra. rewrite cut_at_0 by lra. lra.
    - rewrite !Req_bool_true by lra. rewrite cr_line by lra. lra.
  Qed.

  Lemma W_total Q : sumR (map (W f) (poly_edges Q)) + sumR (map (W (fun p => - f p)) (poly_edges Q)) = sumR (map cr (poly_edges Q)).
  Proof.
    rewrite <- sumR_map_plus. rewrite (sumR_map_ext _ (fun e => (cr e + z (fst e)) + - z (snd e))).
    - rewrite !sumR_map_plus.
      assert (E1 : sumR (map (fun e => z (fst e)) (poly_edges Q)) = sumR (map z Q)).
      { rewrite <- (map_map fst z). apply sumR_perm, Permutation_map, edges_fst_perm. }
      assert (E2 : sumR (map (fun e => - z (snd e)) (poly_edges Q)) = - sumR (map z Q)).
      { rewrite <- (map_map snd (fun p => - z p)), edges_snd. clear. induction Q as [|q Q IH]; cbn; [lra|]. rewrite IH. lra. }
      rewrite E1, E2. lra.
    - intros e _. rewrite W_sum. lra.
  Qed.

  (** [r' s']: the line in either direction *)
  Section Side.
    Variables r' s' : pt.
    Notation g := (orient r' s').
    Hypothesis Hg : forall p, f p = 0 <-> g p = 0.

    Lemma W_mixed fA A' fB B' : convex_ccw ((fA :: A') ++ fB :: B') ->
      (forall w, In w (fA :: A') -> 0 < g w) -> (forall w, In w (fB :: B') -> g w <= 0) ->
      sumR (map cr (poly_edges (sh r' s' ((fA :: A') ++ fB :: B')))) = sumR (map (W g) (poly_edges ((fA :: A') ++ fB :: B'))).
    Proof.
      intros HC HA HB. rewrite (sh_mixed r' s' fA A' fB B' HC HA HB).
      rewrite (K2_edges r' s' fA A' fB B'). rewrite K_edges.
      pose proof (x_def r' s' fA A' fB B' HA HB) as (tx & _ & Ex & Fx).
      pose proof (y_def r' s' fA A' fB B' HA HB) as (ty & _ & Ey & Fy).
      set (x := cutp r' s' (last A' fA) fB) in *. set (y := cutp r' s' (last B' fB) fA) in *.
      cbn [map sumR]. rewrite !map_app, !sumR_app. cbn [map sumR].
      assert (E1 : W g (last B' fB, fA) = cr (y, fA) + lam y).
      { unfold W. cbn [fst snd]. rewrite (Rlt_bool_false 0 (g (last B' fB))) by (apply HB; rewrite <- (last_cons B' fB fB); apply last_in; discriminate).
        rewrite Rlt_bool_true by (apply HA; now left). reflexivity. }
      assert (E2 : W g (last A' fA, fB) = cr (last A' fA, x) - lam x).
      { unfold W. cbn [fst snd]. rewrite (Rlt_bool_true 0 (g (last A' fA))) by (apply HA; rewrite <- (last_cons A' fA fA); apply last_in; discriminate).
        rewrite Rlt_bool_false by (apply HB; now left). reflexivity. }
      assert (E3 : map (W g) (chain fA A') = map cr (chain fA A')).
      { apply map_ext_in. intros (u, v) He. destruct (chain_in _ _ _ _ He) as (Hu & Hv).
        unfold W. cbn [fst snd]. rewrite !Rlt_bool_true; auto; [apply HA; now right|]. destruct Hu as [-> |Hu]; apply HA; [now left|now right]. }
      assert (E4 : sumR (map (W g) (chain fB B')) = 0).
      { apply sumR_map_zero. intros (u, v) He. destruct (chain_in _ _ _ _ He) as (Hu & Hv).
        unfold W. cbn [fst snd]. rewrite !Rlt_bool_false; auto; [apply HB; now right|]. destruct Hu as [-> |Hu]; apply HB; [now left|now right]. }
      rewrite E1, E2, E3, E4. rewrite (cr_line x y) by (apply Hg; auto). lra.
    Qed.

    Lemma W_side K a b : convex_ccw K -> In a K -> In b K -> g a <= 0 -> 0 < g b ->
      2 * shoelace (sh r' s' K) = sumR (map (W g) (poly_edges K)).
    Proof.
      intros HC Ha Hb Ga Gb.
      destruct (mixed_rotate r' s' K a b HC Ha Hb Ga Gb) as (l1 & l2 & fA & A' & fB & B' & EK & ER & HA & HB).
      assert (HC' : convex_ccw ((fA :: A') ++ fB :: B')) by (rewrite <- ER; apply convex_ccw_rot; now rewrite <- EK).
      pose proof (W_mixed fA A' fB B' HC' HA HB) as HW. rewrite <- ER in HW.
      destruct (sh_rot r' s' l1 l2) as (m1 & m2 & E1 & E2).
      rewrite EK. rewrite (sumR_perm (map (W g) (poly_edges (l1 ++ l2))) (map (W g) (poly_edges (l2 ++ l1))))
        by (apply Permutation_map, edges_rot).
      rewrite <- HW, E1, E2, shoelace_rot. unfold shoelace. 
      change (2 * (/ 2 * sumR (map cr (poly_edges (m2 ++ m1)))) = sumR (map cr (poly_edges (m2 ++ m1)))). lra.
    Qed.
  End Side.

  Lemma cut_identity K a b : convex_ccw K -> In a K -> In b K -> f a < 0 -> 0 < f b ->
    shoelace (sh r s K) + shoelace (sh s r K) = shoelace K.
  Proof.
    intros HC Ha Hb Fa Fb.
    assert (Sw : forall p, orient s r p = - f p) by (intros p; unfold orient; ring).
    pose proof (W_side r s (fun p => iff_refl _) K a b HC Ha Hb ltac:(lra) Fb) as S1.
    pose proof (W_side s r) as S2. specialize (S2 ltac:(intros p; rewrite Sw; split; lra) K b a HC Hb Ha).
    rewrite !Sw in S2. specialize (S2 ltac:(lra) ltac:(lra)).
    pose proof (W_total K) as T.
    assert (EW : sumR (map (W (orient s r)) (poly_edges K)) = sumR (map (W (fun p => - f p)) (poly_edges K))).
    { apply sumR_map_ext. intros e _. unfold W, cutg. rewrite !Sw. reflexivity. }
    rewrite EW in S2.
    assert (HS : 2 * shoelace K = sumR (map cr (poly_edges K))).
    { unfold shoelace. change (2 * (/ 2 * sumR (map cr (poly_edges K))) = sumR (map cr (poly_edges K))). lra. }
    lra.
  Qed.
End Line.

(** ** Cutting regions *)
Definition region (S : pt -> Prop) : Prop :=
  (exists K, convex_ccw K /\ forall p, hull K p <-> S p) \/ (exists u v, u <> v /\ forall p, S p -> orient u v p = 0).

Lemma region_area S : region S -> exists A, area_of S A.
Proof.
  intros [(K & HC & HK)|H]; [exists (shoelace K); left; eauto|]. exists 0. right. auto.
Qed.
Lemma area_region S A : area_of S A -> region S.
Proof. intros [(K & HC & HK & _)|(H & _)]; [left; eauto|right; auto]. Qed.

Lemma hull_side K u v p : hull K p -> (forall w, In w K -> 0 <= orient u v w) -> 0 <= orient u v p.
Proof.
  intros (ws & El & Hpos & Hs & ->) H. rewrite (comb_orient u v ws K El Hs). now apply wsum_nonneg.
Qed.
Lemma orient_opp r s p : orient s r p = - orient r s p. Proof. unfold orient. ring. Qed.

Lemma region_cut S r s : region S -> r <> s -> region (fun p => S p /\ 0 <= orient r s p).
Proof.
  intros [(K & HC & HK)|(u & v & Hne & H)] Hrs.
  - pose proof (dd_id K (proj1 (proj2 HC)) ltac:(destruct HC; lia)) as D.
    destruct (sh_step r s K) as [(E0 & Hout)|(HC2 & _ & HR)]; [now rewrite D| |].
    + right. exists r, s. split; auto. intros p (Hp & Hf). rewrite D in Hout. apply HK in Hp.
      pose proof (hull_side K s r p Hp) as G. rewrite orient_opp in G.
      assert (0 <= - orient r s p); [|lra]. apply G. intros w Hw. rewrite orient_opp. pose proof (Hout w Hw). lra.
    + left. exists (dd (sh r s K)). split; auto. intros p. rewrite <- in_poly_hull, HR, D, in_poly_hull, HK by auto. reflexivity.
  - right. exists u, v. split; auto. intros p (Hp & _). auto.
Qed.

Theorem cut_additive S r s A A1 A2 : r <> s -> area_of S A ->
  area_of (fun p => S p /\ 0 <= orient r s p) A1 -> area_of (fun p => S p /\ orient r s p <= 0) A2 -> A = A1 + A2.
Proof.
  intros Hrs HA H1 H2. destruct HA as [(K & HC & HK & ->)|((u & v & Hne & H) & ->)].
  - pose proof (dd_id K (proj1 (proj2 HC)) ltac:(destruct HC; lia)) as D.
    assert (HS : area_of S (shoelace K)) by (left; eauto).
    destruct (sh_step r s K) as [(E0 & Hout)|(HC1 & _ & HR1)]; [now rewrite D| |].
    { (* nothing on the left *)
      rewrite D in Hout.
      assert (G : forall p, S p -> orient r s p <= 0).
      { intros p Hp. apply HK in Hp. pose proof (hull_side K s r p Hp) as G. rewrite orient_opp in G.
        assert (0 <= - orient r s p); [|lra]. apply G. intros w Hw. rewrite orient_opp. pose proof (Hout w Hw). lra. }
      assert (A1 = 0).
      { apply (area_of_unique _ A1 0 H1). right. split; auto. exists r, s. split; auto. intros p (Hp & Hf). pose proof (G p Hp). lra. }
      assert (A2 = shoelace K); [|lra]. apply (area_of_unique _ A2 _ H2). eapply area_of_ext; [|exact HS].
      intros p. split; [auto|tauto]. }
    destruct (sh_step s r K) as [(E0 & Hout)|(HC2 & _ & HR2)]; [now rewrite D| |].
    { rewrite D in Hout.
      assert (G : forall p, S p -> 0 <= orient r s p).
      { intros p Hp. apply HK in Hp. apply (hull_side K r s p Hp). intros w Hw. pose proof (Hout w Hw) as K0. rewrite orient_opp in K0. lra. }
      assert (A2 = 0).
      { apply (area_of_unique _ A2 0 H2). right. split; auto. exists r, s. split; auto. intros p (Hp & Hf). pose proof (G p Hp). lra. }
      assert (A1 = shoelace K); [|lra]. apply (area_of_unique _ A1 _ H1). eapply area_of_ext; [|exact HS].
      intros p. split; [auto|tauto]. }
    rewrite D in HR1, HR2.
    assert (E1 : A1 = shoelace (sh r s K)).
    { rewrite <- shoelace_dd. apply (area_of_unique _ A1 _ H1). left. exists (dd (sh r s K)). split; auto. split; auto.
      intros p. rewrite <- in_poly_hull, HR1, in_poly_hull, HK by auto. reflexivity. }
    assert (E2 : A2 = shoelace (sh s r K)).
    { rewrite <- shoelace_dd. apply (area_of_unique _ A2 _ H2). left. exists (dd (sh s r K)). split; auto. split; auto.
      intros p. rewrite <- in_poly_hull, HR2, in_poly_hull, HK, orient_opp by auto. split; intros (? & ?); split; auto; lra. }
    (* vertices strictly on both sides *)
    assert (P : forall r s, convex_ccw (dd (sh r s K)) -> r <> s -> (forall p, in_poly (dd (sh r s K)) p <-> in_poly K p /\ 0 <= orient r s p) ->
       exists w, In w K /\ 0 < orient r s w).
    { clear - HC. intros r s HC1 Hrs HR1.
      destruct (existsb (ins r s) K) eqn:Ex; [apply existsb_exists in Ex as (w & Hw & Hi); exists w; split; auto; now apply ins_iff|].
      exfalso. apply (convex_not_flat _ r s HC1 Hrs). intros p Hp. apply in_poly_hull in Hp; auto. apply HR1 in Hp as (Hp & Hf).
      apply in_poly_hull in Hp; auto. pose proof (hull_side K s r p Hp) as G. rewrite orient_opp in G.
      assert (0 <= - orient r s p); [|lra]. apply G. intros w Hw. rewrite orient_opp.
      destruct (Rlt_or_le 0 (orient r s w)) as [L|L]; [|lra]. exfalso.
      assert (existsb (ins r s) K = true); [|congruence]. apply existsb_exists. exists w. split; auto. now apply ins_iff. }
    destruct (P r s HC1 Hrs HR1) as (b & Hb & Fb). destruct (P s r HC2 (not_eq_sym Hrs) HR2) as (a & Ha & Fa).
    rewrite orient_opp in Fa. rewrite E1, E2. symmetry. apply (cut_identity r s Hrs K a b); auto. lra.
  - assert (A1 = 0) by (apply (area_of_unique _ A1 0 H1); right; split; auto; exists u, v; split; auto; intros p (Hp & _); auto).
    assert (A2 = 0) by (apply (area_of_unique _ A2 0 H2); right; split; auto; exists u, v; split; auto; intros p (Hp & _); auto).
    lra.
Qed.

(** ** Tilings *)
Lemma region_ext (S S' : pt -> Prop) : (forall p, S p <-> S' p) -> region S -> region S'.
Proof.
  intros E [(K & HC & HK)|(u & v & Hne & H)].
  - left. exists K. split; auto. intros p. rewrite HK. apply E.
  - right. exists u, v. split; auto. intros p Hp. apply H, E, Hp.
Qed.

Lemma region_cuts L : (forall u v, In (u, v) L -> u <> v) -> forall S, region S ->
  region (fun p => S p /\ forall u v, In (u, v) L -> 0 <= orient u v p).
Proof.
  induction L as [|(r, s) L IH]; intros HN S HS.
  - eapply region_ext; [|exact HS]. intros p. split; [|tauto]. intros Hp. split; auto. intros u v [].
  - eapply region_ext; [|apply IH; [|apply (region_cut S r s HS)]].
    + intros p. cbn beta. split.
      * intros ((H1 & H2) & H3). split; auto. intros u v [E|Hin]; [inversion E; subst; auto|auto].
      * intros (H1 & H2). split; [split; auto; apply H2; now left|]. intros u v Hin. apply H2. now right.
    + intros u v Hin. apply HN. now right.
    + apply HN. now left.
Qed.

Lemma convex_edge_ne t u v : convex_ccw t -> In (u, v) (poly_edges t) -> u <> v.
Proof. intros (L & N & _). apply edges_neq; auto. lia. Qed.

Lemma region_meet S t : region S -> convex_ccw t -> region (fun p => S p /\ hull t p).
Proof.
  intros HS HC. eapply region_ext; [|apply (region_cuts (poly_edges t)); [|exact HS]].
  - intros p. cbn beta. rewrite <- (in_poly_hull t p HC). reflexivity.
  - intros u v He. now apply (convex_edge_ne t).
Qed.

Definition one_side (S : pt -> Prop) (e : pt * pt) : Prop :=
  (forall p, S p -> 0 <= orient (fst e) (snd e) p) \/ (forall p, S p -> orient (fst e) (snd e) p <= 0).

Lemma interior_sub K t p : convex_ccw K -> convex_ccw t -> (forall q, hull K q -> hull t q) -> interior K p -> interior t p.
Proof.
  intros HK Ht Hsub Hp u v He.
  pose proof (convex_edge_ne t u v Ht He) as Hne.
  assert (Hd : px u <> px v \/ py u <> py v).
  { destruct (Req_dec (px u) (px v)); [|now left]. right. intros E. apply Hne. now apply pt_eq. }
  destruct (interior_beyond K p (py v - py u) (- (px v - px u)) HK Hp) as (w & Hw & L); [destruct Hd; [right|left]; lra|].
  pose proof (proj2 (in_poly_hull t w Ht) (Hsub w (hull_vertex K w Hw)) u v He) as O.
  unfold orient in *. lra.
Qed.

Definition disjoint (Ts : list (list pt)) : Prop :=
  forall i j t t' p, nth_error Ts i = Some t -> nth_error Ts j = Some t' -> i <> j ->
    interior t p -> interior t' p -> False.

Lemma sum_one (As : list R) i A : nth_error As i = Some A -> (forall j a, nth_error As j = Some a -> j <> i -> a = 0) ->
  sumR As = A.
Proof.
  revert i. induction As as [|x As IH]; intros [|i] H H0; try discriminate; cbn in *.
  - inversion H; subst. assert (E : sumR As = 0); [|lra].
    assert (G : forall j a, nth_error As j = Some a -> a = 0) by (intros j a Hj; apply (H0 (S j) a Hj); lia).
    clear - G. induction As as [|x As IH]; cbn; auto. rewrite (G O x eq_refl), IH; [lra|]. intros j a Hj. apply (G (S j) a Hj).
  - rewrite (IH i H); [rewrite (H0 O x eq_refl); [lra|lia]|]. intros j a Hj Hn. apply (H0 (S j) a Hj). lia.
Qed.

Lemma forall2_nth {A B} (P : A -> B -> Prop) l m : Forall2 P l m ->
  forall i b, nth_error m i = Some b -> exists a, nth_error l i = Some a /\ P a b.
Proof.
  induction 1; intros [|i] c Hc; cbn in *; try discriminate; [inversion Hc; subst; eauto|eauto].
Qed.
Lemma forall2_nth' {A B} (P : A -> B -> Prop) l m : Forall2 P l m ->
  forall i a, nth_error l i = Some a -> exists b, nth_error m i = Some b /\ P a b.
Proof.
  induction 1; intros [|i] c Hc; cbn in *; try discriminate; [inversion Hc; subst; eauto|eauto].
Qed.

Lemma tiling_base (S : pt -> Prop) Ts As A : Forall convex_ccw Ts -> disjoint Ts ->
  (forall p, S p -> exists t, In t Ts /\ hull t p) ->
  (forall t e, In t Ts -> In e (poly_edges t) -> one_side S e) ->
  area_of S A -> Forall2 (fun t a => area_of (fun p => S p /\ hull t p) a) Ts As -> A = sumR As.
Proof.
  intros HT HD HCov HS HA HAs.
  destruct HA as [(K & HC & HK & ->)|((u & v & Hne & H) & ->)].
  - destruct (interior_exists K HC) as (p & Hp).
    assert (Sp : S p) by (apply HK, in_poly_hull; auto; now apply interior_in_poly).
    destruct (HCov p Sp) as (t & Ht & Htp).
    pose proof (proj1 (Forall_forall _ _) HT t Ht) as Ct.
    assert (Sub : forall q, S q -> hull t q).
    { intros q Hq. apply in_poly_hull; auto. intros u v He.
      destruct (HS t (u, v) Ht He) as [G|G]; cbn [fst snd] in G; [now apply G|]. exfalso.
      pose proof (proj2 (in_poly_hull t p Ct) Htp u v He) as O.
      pose proof (convex_edge_ne t u v Ct He) as Hne.
      assert (Hd : px u <> px v \/ py u <> py v).
      { destruct (Req_dec (px u) (px v)); [|now left]. right. intros E. apply Hne. now apply pt_eq. }
      destruct (interior_beyond K p (- (py v - py u)) (px v - px u) HC Hp) as (w & Hw & L); [destruct Hd; [right|left]; lra|].
      pose proof (G w (proj1 (HK w) (hull_vertex K w Hw))) as O2. unfold orient in *. lra. }
    apply In_nth_error in Ht as (i & Hi).
    destruct (forall2_nth' _ _ _ HAs i t Hi) as (a & Ha & Haa).
    assert (Ea : a = shoelace K).
    { apply (area_of_unique _ a _ Haa). left. exists K. split; auto. split; auto. intros q. rewrite HK. split; [auto|tauto]. }
    symmetry. apply (sum_one As i); [now rewrite <- Ea|].
    intros j b Hb Hji. destruct (forall2_nth _ _ _ HAs j b Hb) as (t' & Ht' & Hb').
    destruct Hb' as [(K' & HC' & HK' & _)|(_ & ->)]; auto. exfalso.
    assert (Ct' : convex_ccw t') by (apply (proj1 (Forall_forall _ _) HT), (nth_error_In _ j), Ht').
    destruct (interior_exists K' HC') as (q & Hq).
    apply (HD i j t t' q Hi Ht' (not_eq_sym Hji)).
    + apply (interior_sub K' t q); auto. intros q' Hq'. apply Sub. now apply HK'.
    + apply (interior_sub K' t' q); auto. intros q' Hq'. now apply HK'.
  - assert (Z : forall a, In a As -> a = 0).
    { intros a Ha. apply In_nth_error in Ha as (i & Hi). destruct (forall2_nth _ _ _ HAs i a Hi) as (t & _ & Hta).
      apply (area_of_unique _ a 0 Hta). right. split; auto. exists u, v. split; auto. intros p (Hp & _). auto. }
    symmetry. rewrite <- (map_id As). apply sumR_map_zero. exact Z.
Qed.

Lemma tiling_lines : forall L (S : pt -> Prop) Ts As A, (forall u v, In (u, v) L -> u <> v) -> Forall convex_ccw Ts -> disjoint Ts ->
  (forall p, S p -> exists t, In t Ts /\ hull t p) ->
  (forall t e, In t Ts -> In e (poly_edges t) -> In e L \/ one_side S e) ->
  area_of S A -> Forall2 (fun t a => area_of (fun p => S p /\ hull t p) a) Ts As -> A = sumR As.
Proof.
  induction L as [|(r, s) L IH]; intros S Ts As A HN HT HD HCov HS HA HAs.
  - apply (tiling_base S Ts As A HT HD HCov); auto. intros t e Ht He. destruct (HS t e Ht He) as [[]|]; auto.
  - assert (Hrs : r <> s) by (apply HN; now left).
    pose proof (area_region S A HA) as RS.
    set (S1 := fun p => S p /\ 0 <= orient r s p). set (S2 := fun p => S p /\ orient r s p <= 0).
    assert (R1 : region S1) by (apply region_cut; auto).
    assert (R2 : region S2).
    { eapply region_ext; [|apply (region_cut S s r RS (not_eq_sym Hrs))]. intros p. cbn beta. unfold S2. rewrite orient_opp.
      split; intros (? & ?); split; auto; lra. }
    destruct (region_area S1 R1) as (A1 & HA1). destruct (region_area S2 R2) as (A2 & HA2).
    assert (EX : forall S', region S' -> exists As', Forall2 (fun t a => area_of (fun p => S' p /\ hull t p) a) Ts As').
    { intros S' HR. clear - HR HT. induction HT as [|t Ts Ht HT IH]; [exists []; constructor|].
      destruct IH as (As' & H). destruct (region_area _ (region_meet S' t HR Ht)) as (a & Ha). exists (a :: As'). now constructor. }
    destruct (EX S1 R1) as (As1 & HAs1). destruct (EX S2 R2) as (As2 & HAs2).
    assert (HN' : forall u v, In (u, v) L -> u <> v) by (intros u v H; apply HN; now right).
    assert (E1 : A1 = sumR As1).
    { apply (IH S1 Ts As1 A1 HN' HT HD); auto.
      - intros p (Hp & _). auto.
      - intros t e Ht He. destruct (HS t e Ht He) as [[<-|Hin]|[G|G]]; auto.
        + right. left. intros p (_ & Hp). exact Hp.
        + right. left. intros p (Hp & _). auto.
        + right. right. intros p (Hp & _). auto. }
    assert (E2 : A2 = sumR As2).
    { apply (IH S2 Ts As2 A2 HN' HT HD); auto.
      - intros p (Hp & _). auto.
      - intros t e Ht He. destruct (HS t e Ht He) as [[<-|Hin]|[G|G]]; auto.
        + right. right. intros p (_ & Hp). exact Hp.
        + right. left. intros p (Hp & _). auto.
        + right. right. intros p (Hp & _). auto. }
    rewrite (cut_additive S r s A A1 A2 Hrs HA HA1 HA2), E1, E2.
    clear - Hrs HAs HAs1 HAs2. revert As1 As2 HAs1 HAs2. induction HAs as [|t a Ts As Ha HAs IH]; intros As1 As2 H1 H2.
    + inversion H1; inversion H2; subst. cbn. lra.
    + inversion H1 as [|? a1 ? As1' Ha1 H1']; subst. inversion H2 as [|? a2 ? As2' Ha2 H2']; subst. cbn.
      rewrite <- (IH As1' As2' H1' H2').
      assert (a = a1 + a2); [|lra]. apply (cut_additive (fun p => S p /\ hull t p) r s); auto.
      * eapply area_of_ext; [|exact Ha1]. intros p. unfold S1. tauto.
      * eapply area_of_ext; [|exact Ha2]. intros p. unfold S2. tauto.
Qed.

Theorem tiling_area (S : pt -> Prop) Ts As A : Forall convex_ccw Ts -> disjoint Ts ->
  (forall p, S p -> exists t, In t Ts /\ hull t p) ->
  area_of S A -> Forall2 (fun t a => area_of (fun p => S p /\ hull t p) a) Ts As -> A = sumR As.
Proof.
  intros HT HD HCov HA HAs. apply (tiling_lines (flat_map poly_edges Ts) S Ts As A); auto.
  - intros u v H. apply in_flat_map in H as (t & Ht & He). apply (convex_edge_ne t); auto. now apply (proj1 (Forall_forall _ _) HT).
  - intros t e Ht He. left. apply in_flat_map. eauto.
Qed.

(** area is monotone *)
Lemma area_meet_le (S : pt -> Prop) t A B : convex_ccw t -> area_of S A -> area_of (fun p => S p /\ hull t p) B -> B <= A.
Proof.
  intros HC HA HB.
  assert (G : forall L, (forall u v, In (u, v) L -> u <> v) -> forall (S : pt -> Prop) A B, area_of S A ->
    area_of (fun p => S p /\ forall u v, In (u, v) L -> 0 <= orient u v p) B -> B <= A).
  { induction L as [|(r, s) L IH]; intros HN S' A' B' HA' HB'.
    - right. apply (area_of_unique S' B' A'); auto. eapply area_of_ext; [|exact HB']. intros p. cbn beta. split; [tauto|].
      intros Hp. split; auto. intros u v [].
    - assert (Hrs : r <> s) by (apply HN; now left).
      pose proof (area_region _ _ HA') as RS.
      destruct (region_area _ (region_cut S' r s RS Hrs)) as (A1 & HA1).
      destruct (region_area _ (region_cut S' s r RS (not_eq_sym Hrs))) as (A2 & HA2).
      assert (E : A' = A1 + A2).
      { apply (cut_additive S' r s); auto. eapply area_of_ext; [|exact HA2]. intros p. cbn beta. rewrite orient_opp.
        split; intros (? & ?); split; auto; lra. }
      pose proof (area_of_nonneg _ _ HA2).
      assert (B' <= A1); [|lra]. apply (IH ltac:(intros u v H0; apply HN; now right) _ _ _ HA1).
      eapply area_of_ext; [|exact HB']. intros p. cbn beta. split.
      + intros (H1 & H2). split; [split; auto; apply H2; now left|]. intros u v Hin. apply H2. now right.
      + intros ((H1 & H2) & H3). split; auto. intros u v [E0|Hin]; [inversion E0; subst; auto|auto]. }
  apply (G (poly_edges t) (fun u v => convex_edge_ne t u v HC) S A B HA).
  eapply area_of_ext; [|exact HB]. intros p. cbn beta. rewrite <- (in_poly_hull t p HC). reflexivity.
Qed.
