(** Cyrus-Beck over exact reals: clipping by a strictly convex polygon is exact. *)
From Verif Require Import RBase MUtils MGeometry MAlgorithms SpecQuery SpecGeom SpecPoly PBuild PMesh PInit NumSub PPoints
  GBox GLines GTriangle GConvex GHull GRay GCyrus.
Open Scope R_scope.

(** vertices by index and the sides of the polygon *)
Lemma edge_at_in (poly : list pt) i v0 v1 : edge_at poly i v0 v1 -> In (v0, v1) (poly_edges poly).
Proof.
  intros ((H0 & Hn) & E0 & E1). destruct poly as [|x l]; [unfold zlen in Hn; cbn in Hn; lia|].
  rewrite edges_cons. apply aget_pos_inv in E0; [|lia].
  destruct (Z.eq_dec (i + 1) (zlen (x :: l))) as [E|N].
  - left. rewrite E, Z_mod_same_full in E1. cbn in E1. inversion E1; subst v1. f_equal.
    assert (Ei : Z.to_nat i = length l) by (unfold zlen in E; cbn [length] in E; lia). rewrite Ei in E0.
    destruct (exists_last (l:=x :: l) ltac:(discriminate)) as (l' & y & El).
    rewrite <- (last_cons l x x), El, last_last. rewrite El in E0.
    assert (length l = length l') by (apply (f_equal (@length pt)) in El; rewrite app_length in El; cbn in El; lia).
    rewrite H, nth_error_app2, Nat.sub_diag in E0 by lia. cbn in E0. congruence.
  - right. rewrite Z.mod_small in E1 by (unfold zlen in *; lia). apply aget_pos_inv in E1; [|lia].
    replace (Z.to_nat (i + 1)) with (S (Z.to_nat i)) in E1 by lia. cbn [nth_error] in E1.
    clear - E0 E1. revert x l E0 E1. induction (Z.to_nat i) as [|k IH]; intros x l E0 E1; cbn in E0.
    + inversion E0; subst. destruct l; [discriminate|]. cbn in *. inversion E1; subst. now left.
    + destruct l as [|y l]; [discriminate|]. cbn. right. apply IH; auto.
Qed.

Lemma in_edge_at (poly : list pt) w : In w poly -> exists i v1, edge_at poly i w v1.
Proof.
  intros H. apply In_nth_error in H as (k & Hk).
  assert (Hl : (k < length poly)%nat) by (apply nth_error_Some; congruence).
  destruct (edge_exists_at poly (Z.of_nat k)) as (v0 & v1 & He); [unfold zlen; lia|].
  exists (Z.of_nat k), v1. destruct He as (H1 & H2 & H3). split; auto. split; auto.
  apply aget_nat. auto.
Qed.

Lemma on_line a b x : a <> b -> orient a b x = 0 -> exists t, x = at_ a b t.
Proof.
  intros Hne H. unfold orient in H. destruct (Req_dec (px b) (px a)) as [Ex|Ex].
  - assert (Ey : py b - py a <> 0) by (intros E; apply Hne; apply pt_eq; lra).
    exists ((py x - py a) / (py b - py a)). apply pt_eq; unfold at_; cbn [px py].
    + rewrite Ex in *. assert (E : (py b - py a) * (px x - px a) = 0) by lra. apply Rmult_integral in E as [E|E]; [lra|].
      replace (px a - px a) with 0 by ring. lra.
    + field. auto.
  - exists ((px x - px a) / (px b - px a)). apply pt_eq; unfold at_; cbn [px py].
    + field. lra.
    + apply (Rmult_eq_reg_r (px b - px a)); [|lra]. field_simplify; [|lra]. lra.
Qed.
Lemma zero_or (F : pt -> R) l : (exists w, In w l /\ F w = 0) \/ (forall w, In w l -> F w <> 0).
Proof.
  induction l as [|x l [(w & H & E)|IH]].
  - right. intros w [].
  - left. exists w. split; [now right|auto].
  - destruct (Req_dec (F x) 0) as [E|N]; [left; exists x; split; [now left|auto]|].
    right. intros w [<-|H]; auto.
Qed.

Section Clip.
  Variables a b : pt.
  Variable poly : list pt.
  Hypothesis Hab : a <> b.
  Hypothesis HC : convex_ccw poly.
  Notation L := (at_ a b).
  Notation n := (zlen poly).
  Notation side := (side a b).
  Notation changes := (changes a b).
  Notation param := (param a b).

  Lemma side_at v w t : side (at_ v w t) = side v + t * (side w - side v).
  Proof. rewrite !side_orient, orient_at. ring. Qed.
  Lemma side_L t : side (L t) = 0.
  Proof. rewrite side_orient, orient_at, orient_12, orient_22. ring. Qed.

  (** the crossing point of a side *)
  Lemma change_point v0 v1 : changes v0 v1 -> on_segment v0 v1 (L (param v0 v1)).
  Proof.
    intros Hc. exists (side v0 / (side v0 - side v1)).
    assert (N : side v0 - side v1 <> 0) by (unfold GCyrus.changes in Hc; lra). split.
    - destruct Hc as [(H1 & H2)|(H1 & H2)].
      + replace (side v0 / (side v0 - side v1)) with ((- side v0) / (side v1 - side v0)) by (field; lra).
        split; [apply Rmult_le_pos; [lra|left; apply Rinv_0_lt_compat; lra]|].
        apply (Rmult_le_reg_r (side v1 - side v0)); [lra|]. unfold Rdiv. rewrite Rmult_assoc, Rinv_l; lra.
      + split; [apply Rmult_le_pos; [lra|left; apply Rinv_0_lt_compat; lra]|].
        apply (Rmult_le_reg_r (side v0 - side v1)); [lra|]. unfold Rdiv. rewrite Rmult_assoc, Rinv_l; lra.
    - unfold GCyrus.param. rewrite !side_orient in *. unfold orient, at_ in *. apply pt_eq; cbn [px py]; field; lra.
  Qed.
  Lemma change_line v0 v1 t : changes v0 v1 -> orient v0 v1 (L t) = (param v0 v1 - t) * (side v0 - side v1).
  Proof.
    intros Hc. assert (N : side v0 - side v1 <> 0) by (unfold GCyrus.changes in Hc; lra).
    unfold GCyrus.param. rewrite orient_at.
    replace ((orient v0 v1 a / (side v0 - side v1) - t) * (side v0 - side v1)) with (orient v0 v1 a - t * (side v0 - side v1)) by (field; lra).
    rewrite !side_orient. unfold orient. ring.
  Qed.

  Lemma seg_in_poly u v x : In (u, v) (poly_edges poly) -> on_segment u v x -> in_poly poly x.
  Proof.
    intros He (t & Ht & ->). apply edges_in in He as (Hu & Hv).
    apply in_poly_at; auto; now apply vertex_in_poly.
  Qed.

  (** ** two changes of sign *)
  Definition enters (v0 v1 : pt) : Prop := side v0 < 0 <= side v1.
  Definition leaves (v0 v1 : pt) : Prop := side v1 < 0 <= side v0.

  Lemma between_two e0 e1 l0 l1 : In (e0, e1) (poly_edges poly) -> In (l0, l1) (poly_edges poly) ->
    enters e0 e1 -> leaves l0 l1 ->
    param e0 e1 <= param l0 l1 /\ forall t, in_poly poly (L t) <-> param e0 e1 <= t <= param l0 l1.
  Proof.
    intros He Hl E F. assert (Ce : changes e0 e1) by (left; unfold enters in E; lra).
    assert (Cl : changes l0 l1) by (right; unfold leaves in F; lra).
    assert (Pe : in_poly poly (L (param e0 e1))) by (apply (seg_in_poly e0 e1); auto; now apply change_point).
    assert (Pl : in_poly poly (L (param l0 l1))) by (apply (seg_in_poly l0 l1); auto; now apply change_point).
    assert (B : forall t, in_poly poly (L t) -> param e0 e1 <= t <= param l0 l1).
    { intros t H. pose proof (H _ _ He) as H1. pose proof (H _ _ Hl) as H2.
      rewrite change_line in H1 by auto. rewrite change_line in H2 by auto. unfold enters, leaves in *. split.
      - apply Rnot_lt_le. intros N. assert (0 < (param e0 e1 - t) * (side e1 - side e0)) by (apply Rmult_lt_0_compat; lra). lra.
      - apply Rnot_lt_le. intros N. assert (0 < (t - param l0 l1) * (side l0 - side l1)) by (apply Rmult_lt_0_compat; lra). lra. }
    split; [apply (B _ Pl)|]. intros t. split; auto. intros Ht.
    destruct (Req_dec (param e0 e1) (param l0 l1)) as [Eq|N].
    - replace t with (param e0 e1) by lra. auto.
    - replace (L t) with (at_ (L (param e0 e1)) (L (param l0 l1)) ((t - param e0 e1) / (param l0 l1 - param e0 e1))).
      + apply in_poly_at; auto. split; [apply Rmult_le_pos; [lra|left; apply Rinv_0_lt_compat; lra]|].
        apply (Rmult_le_reg_r (param l0 l1 - param e0 e1)); [lra|]. unfold Rdiv. rewrite Rmult_assoc, Rinv_l; lra.
      + unfold at_. apply pt_eq; cbn [px py]; field; lra.
  Qed.

  Lemma quiet_same i0 i1 v01 v1 : (forall i, (i0 < i < i1)%Z -> quiet_at a b poly i) -> (0 <= i0 < i1)%Z -> (i1 < n)%Z ->
    aget poly (i0 + 1)%Z = Ok v01 -> aget poly i1 = Ok v1 -> neg a b v01 = neg a b v1.
  Proof.
    intros HQ H0 H1 E01 E1.
    assert (G : forall m v, (m < Z.to_nat (i1 - i0))%nat -> aget poly (i0 + 1 + Z.of_nat m)%Z = Ok v -> neg a b v01 = neg a b v).
    { induction m as [|m IH]; intros v Hm Hv.
      - rewrite Z.add_0_r in Hv. congruence.
      - destruct (HQ (i0 + 1 + Z.of_nat m)%Z ltac:(lia)) as (w0 & w1 & (_ & W0 & W1) & Hn & _).
        rewrite (IH w0 ltac:(lia) W0). rewrite Z.mod_small in W1 by lia.
        replace (i0 + 1 + Z.of_nat m + 1)%Z with (i0 + 1 + Z.of_nat (S m))%Z in W1 by lia.
        assert (w1 = v) by congruence. subst w1.
        destruct (xorb (neg a b w0) (neg a b v)) eqn:X; [destruct Hn; now apply neg_changes|].
        now apply xorb_eq in X. }
    apply (G (Z.to_nat (i1 - i0 - 1)) v1); [lia|]. rewrite Z2Nat.id by lia. replace (i0 + 1 + (i1 - i0 - 1))%Z with i1 by lia. auto.
  Qed.

  Lemma two_changes i0 i1 v0 v01 v1 v11 : (i0 < i1)%Z -> edge_at poly i0 v0 v01 -> edge_at poly i1 v1 v11 ->
    changes v0 v01 -> changes v1 v11 -> (forall i, (0 <= i < i1)%Z -> i <> i0 -> quiet_at a b poly i) ->
    (enters v0 v01 /\ leaves v1 v11) \/ (leaves v0 v01 /\ enters v1 v11).
  Proof.
    intros Hlt E0 E1 C0 C1 HQ. destruct E0 as (R0 & A0 & A1), E1 as (R1 & B0 & B1).
    assert (HS : neg a b v01 = neg a b v1).
    { apply (quiet_same i0 i1); auto; try lia.
      - intros i Hi. apply HQ; lia.
      - rewrite Z.mod_small in A1 by lia. auto. }
    unfold neg in HS. unfold enters, leaves. destruct C0 as [(P1 & P2)|(P1 & P2)], C1 as [(Q1 & Q2)|(Q1 & Q2)]; try (left; lra); try (right; lra);
      exfalso; revert HS; repeat rcase; try discriminate; lra.
  Qed.

  (** ** no change of sign *)
  Lemma no_change_side : (forall i, (0 <= i < n)%Z -> quiet_at a b poly i) ->
    (forall w, In w poly -> side w < 0) \/ (forall w, In w poly -> 0 <= side w).
  Proof.
    intros HQ. assert (Hn : (0 < n)%Z) by (destruct HC as (H & _); unfold zlen; lia).
    destruct (aget_ok_pos poly 0 ltac:(lia)) as (first & Ef & _).
    assert (G : forall m v, (m < length poly)%nat -> aget poly (Z.of_nat m) = Ok v -> neg a b v = neg a b first).
    { induction m as [|m IH]; intros v Hm Hv; [change (Z.of_nat 0) with 0%Z in Hv; congruence|].
      destruct (HQ (Z.of_nat m)) as (w0 & w1 & (_ & W0 & W1) & Hnc & _); [unfold zlen; lia|].
      rewrite <- (IH w0 ltac:(lia) W0). rewrite Z.mod_small in W1 by (unfold zlen; lia).
      replace (Z.of_nat m + 1)%Z with (Z.of_nat (S m)) in W1 by lia. assert (w1 = v) by congruence. subst w1.
      destruct (xorb (neg a b w0) (neg a b v)) eqn:X; [destruct Hnc; now apply neg_changes|].
      apply xorb_eq in X. auto. }
    assert (G' : forall w, In w poly -> neg a b w = neg a b first).
    { intros w Hw. apply In_nth_error in Hw as (k & Hk). apply (G k); [apply nth_error_Some; congruence|now apply aget_nat]. }
    destruct (neg a b first) eqn:Ef'; [left|right]; intros w Hw; specialize (G' w Hw); unfold neg in G'; rb; lra.
  Qed.

  Lemma zero_adjacent w1 w2 : (forall w, In w poly -> 0 <= side w) -> In w1 poly -> In w2 poly -> w1 <> w2 ->
    side w1 = 0 -> side w2 = 0 -> In (w1, w2) (poly_edges poly) \/ In (w2, w1) (poly_edges poly).
  Proof.
    intros HS H1 H2 Hne Z1 Z2. destruct (edges_start poly w1 H1) as (x & Hx). destruct (edges_end poly w1 H1) as (y & Hy).
    destruct (pt_dec x w2) as [->|Nx]; auto. destruct (pt_dec y w2) as [->|Ny]; auto. exfalso.
    pose proof HC as (Hlen & HD & HO).
    pose proof (HO w1 x w2 Hx H2 ltac:(congruence) ltac:(congruence)) as O1.
    pose proof (HO y w1 w2 Hy H2 ltac:(congruence) ltac:(congruence)) as O2.
    assert (Sx : 0 <= side x) by (apply HS; apply edges_in in Hx; tauto).
    assert (Sy : 0 <= side y) by (apply HS; apply edges_in in Hy; tauto).
    rewrite side_orient in *.
    (* w1 = L t1, w2 = L t2 *)
    destruct (on_line a b w1 Hab ltac:(lra)) as (t1 & ->). destruct (on_line a b w2 Hab ltac:(lra)) as (t2 & ->).
    assert (E1 : orient (L t1) x (L t2) = - (t2 - t1) * orient a b x) by (unfold orient, at_; cbn [px py]; ring).
    assert (E2 : orient y (L t1) (L t2) = (t2 - t1) * orient a b y) by (unfold orient, at_; cbn [px py]; ring).
    rewrite E1 in O1. rewrite E2 in O2.
    destruct (Rtotal_order t1 t2) as [Hlt|[He|Hgt]]; [|congruence|].
    - assert (0 <= (t2 - t1) * - orient a b y) by (apply Rmult_le_pos; lra). lra.
    - assert (0 <= (t1 - t2) * - orient a b x) by (apply Rmult_le_pos; lra). lra.
  Qed.

  Lemma zero_weights F w : forall ws vs, length ws = length vs -> Forall (fun x => 0 <= x) ws -> (forall v, In v vs -> 0 <= F v) ->
    (forall v, In v vs -> F v = 0 -> v = w) -> wsum F ws vs = 0 -> forall G, wsum G ws vs = G w * sumR ws.
  Proof.
    induction ws as [|x ws IH]; intros [|v vs] Hl HP HF HZ HS G; try discriminate; [cbn; ring|].
    rewrite wsum_cons in *. pose proof (Forall_inv HP) as Hx. apply Forall_inv_tail in HP.
    assert (A : 0 <= x * F v) by (apply Rmult_le_pos; auto; apply HF; now left).
    assert (B : 0 <= wsum F ws vs) by (apply wsum_nonneg; auto; intros; apply HF; now right).
    rewrite IH; auto; try lra.
    - cbn [sumR]. assert (Hz : x * F v = 0) by lra. apply Rmult_integral in Hz as [->|Hz]; [ring|].
      rewrite (HZ v (or_introl eq_refl) Hz). ring.
    - intros u Hu. apply HF. now right.
    - intros u Hu. apply HZ. now right.
  Qed.

  Lemma no_change_point : (forall i, (0 <= i < n)%Z -> quiet_at a b poly i) ->
    forall x y, hull poly x -> hull poly y -> side x = 0 -> side y = 0 -> x = y.
  Proof.
    intros HQ x y Hx Hy Zx Zy.
    assert (SW : forall ws, length ws = length poly -> sumR ws = 1 -> side (comb ws poly) = wsum side ws poly).
    { intros ws Hl Hs. rewrite side_orient, comb_orient by auto.
      rewrite (wsum_ext side (fun w => (-1) * orient a b w)) by (intros; rewrite side_orient; ring).
      clear - Hl. revert Hl. generalize poly. induction ws as [|w ws IH]; intros [|v vs] Hl; try discriminate; [cbn; ring|].
      rewrite !wsum_cons. rewrite <- IH by (cbn in Hl; lia). ring. }
    destruct (no_change_side HQ) as [HN|HP].
    - exfalso. destruct Hx as (ws & Hl & Hp & Hs & ->). rewrite SW in Zx by auto.
      assert (0 <= wsum (fun w => - side w) ws poly) by (apply wsum_nonneg; auto; intros v Hv; specialize (HN v Hv); lra).
      assert (E : in_poly poly (comb ws poly)) by (apply in_poly_hull; auto; exists ws; auto).
      assert (M : side (comb ws poly) < 0).
      { rewrite side_orient, orient_aff. 
        pose proof (in_poly_aff_lt poly (comb ws poly) (py b - py a) (- (px b - px a)) (- ((py b - py a) * px a - (px b - px a) * py a)) HC E) as K.
        assert (KK : forall v, side v = aff (py b - py a) (- (px b - px a)) (- ((py b - py a) * px a - (px b - px a) * py a)) v).
        { intros v. rewrite side_orient. unfold orient, aff. ring. }
        rewrite <- orient_aff, <- side_orient, KK. apply K. intros v Hv. rewrite <- KK. auto. }
      rewrite SW in M by auto. lra.
    - assert (HZ : forall w1 w2, In w1 poly -> In w2 poly -> side w1 = 0 -> side w2 = 0 -> w1 = w2).
      { intros w1 w2 H1 H2 Z1 Z2. destruct (pt_dec w1 w2) as [|Hne]; auto. exfalso.
        assert (F : forall u v, In (u, v) (poly_edges poly) -> side u = 0 -> side v = 0 -> False).
        { intros u v Huv Zu Zv. pose proof (edges_in _ _ _ Huv) as (Hu & _). destruct (in_edge_at poly u Hu) as (i & v' & He).
          pose proof (edge_at_in _ _ _ _ He) as He'. assert (v' = v) by (destruct HC as (_ & HD & _); eapply edges_start_unique; eauto). subst v'.
          destruct He as (Hi & A0 & A1). destruct (HQ i Hi) as (x0 & x1 & (_ & X0 & X1) & _ & Hf).
          apply Hf. assert (x0 = u) by congruence. assert (x1 = v) by congruence. subst. split; auto. }
        destruct (zero_adjacent w1 w2 HP H1 H2 Hne Z1 Z2) as [He|He]; eapply F; eauto. }
      assert (K : forall z, hull poly z -> side z = 0 -> exists w, In w poly /\ side w = 0 /\ z = w).
      { intros z (ws & Hl & Hp & Hs & ->) Hz. rewrite SW in Hz by auto.
        assert (Hex : exists w, In w poly /\ side w = 0).
        { destruct (zero_or side poly) as [H|H]; [exact H|exfalso].
          assert (0 < wsum side ws poly).
          { assert (M : 0 < side (comb ws poly)); [|now rewrite SW in M].
            assert (E : in_poly poly (comb ws poly)) by (apply in_poly_hull; auto; exists ws; auto).
            assert (KK : forall v, - side v = aff (- (py b - py a)) (px b - px a) ((py b - py a) * px a - (px b - px a) * py a) v).
            { intros v. rewrite side_orient. unfold orient, aff. ring. }
            pose proof (in_poly_aff_lt poly (comb ws poly) (- (py b - py a)) (px b - px a) ((py b - py a) * px a - (px b - px a) * py a) HC E) as M.
            rewrite <- KK in M. assert (- side (comb ws poly) < 0); [|lra]. apply M. intros v Hv. rewrite <- KK.
            specialize (HP v Hv). specialize (H v Hv). lra. }
          lra. }
        destruct Hex as (w & Hw & Zw). exists w. split; auto. split; auto.
        assert (G : forall G, wsum G ws poly = G w * sumR ws).
        { apply (zero_weights side); auto. }
        apply pt_eq; [rewrite comb_px|rewrite comb_py]; rewrite G, Hs; ring. }
      destruct (K x Hx Zx) as (w1 & H1 & Z1 & ->). destruct (K y Hy Zy) as (w2 & H2 & Z2 & ->). auto.
  Qed.

  (** ** the common part of the segment and an interval of the line *)
  Definition clipI (lo hi : R) : option (pt * pt) :=
    if Rlt_bool (Rmax 0 lo) (Rmin 1 hi) then Some (L (Rmax 0 lo), L (Rmin 1 hi)) else None.

  Lemma clipI_result (S : pt -> Prop) lo hi : (forall t, S (L t) <-> lo <= t <= hi) -> clip_result S a b (clipI lo hi).
  Proof.
    intros HS. destruct (Rmax_cases 0 lo) as ((M1 & M2) & M3). destruct (Rmin_cases 1 hi) as ((N1 & N2) & N3).
    unfold clipI. rcase.
    - split; auto. exists (Rmax 0 lo), (Rmin 1 hi). split; [lra|]. split; [lra|]. split; auto. split; auto.
      intros u Hu. rewrite HS. lra.
    - intros x y (s & Hs & ->) (t & Ht & ->) Sx Sy. apply HS in Sx, Sy. f_equal. lra.
  Qed.

  Notation D := ((px b - px a) * (px b - px a) + (py b - py a) * (py b - py a)).
  Lemma D_pos : 0 < D.
  Proof.
    destruct (Req_dec (px b) (px a)) as [Ex|Ex]; [destruct (Req_dec (py b) (py a)) as [Ey|Ey]|].
    - destruct Hab. now apply pt_eq.
    - assert (0 < Rsqr (py b - py a)) by (apply Rsqr_pos_lt; lra). pose proof (Rle_0_sqr (px b - px a)). unfold Rsqr in *. lra.
    - assert (0 < Rsqr (px b - px a)) by (apply Rsqr_pos_lt; lra). pose proof (Rle_0_sqr (py b - py a)). unfold Rsqr in *. lra.
  Qed.

  Lemma overlap_ok d lo hi : 0 < d -> lo <= hi -> overlap 0 (- d) (- lo * d) (- hi * d) = Rlt_bool (Rmax 0 lo) (Rmin 1 hi).
  Proof.
    intros Hd Hl. unfold overlap. rewrite !nmax_R, !nmin_R. rsimp.
    rewrite (Rlt_bool_true (- d) 0) by lra.
    assert (E1 : Rmin 0 (- lo * d) = - (Rmax 0 lo) * d).
    { unfold Rmin, Rmax. destruct (Rle_dec 0 (- lo * d)), (Rle_dec 0 lo); nra. }
    assert (E2 : Rmax (- d) (- hi * d) = - (Rmin 1 hi) * d).
    { unfold Rmin, Rmax. destruct (Rle_dec (- d) (- hi * d)), (Rle_dec 1 hi); nra. }
    assert (E : forall x y, x = Rmin 0 (- lo * d) -> y = Rmax (- d) (- hi * d) ->
              Rlt_bool 0 (Rmax 0 (x - y)) = Rlt_bool (Rmax 0 lo) (Rmin 1 hi)).
    { intros x y -> ->. rewrite E1, E2. set (m := Rmax 0 lo). set (k := Rmin 1 hi).
      destruct (Rlt_or_le m k) as [H|H].
      - rewrite (Rlt_bool_true m k) by auto. apply Rlt_bool_true. apply Rlt_le_trans with (- m * d - - k * d); [|apply Rmax_r].
        replace (- m * d - - k * d) with ((k - m) * d) by ring. apply Rmult_lt_0_compat; lra.
      - rewrite (Rlt_bool_false m k) by auto. apply Rlt_bool_false.
        assert (0 <= (m - k) * d) by (apply Rmult_le_pos; lra). apply Rmax_lub; lra. }
    destruct (Rlt_or_le (- hi * d) (- lo * d)) as [H|H].
    - rewrite (Rlt_bool_true (- hi * d) (- lo * d)) by auto. apply E; reflexivity.
    - rewrite (Rlt_bool_false (- hi * d) (- lo * d)) by auto. assert (lo = hi) by nra. subst. apply E; reflexivity.
  Qed.

  Lemma aligned_ok t0 t1 U : px U <> 0 \/ py U <> 0 -> aligned U (Pt ((t1 - t0) * px U) ((t1 - t0) * py U)) = Rle_bool t0 t1.
  Proof.
    intros HU. unfold aligned. cbn [px py]. rsimp.
    destruct (Req_dec t0 t1) as [->|Hne].
    { replace (t1 - t1) with 0 by ring. rewrite !Rmult_0_l, (Req_bool_true 0 0) by auto. cbn [andb]. rewrite orb_true_r.
      symmetry. apply Rle_bool_true. lra. }
    assert (K : forall x, x <> 0 -> (t1 - t0) * x <> 0 /\ Bool.eqb (Rlt_bool 0 x) (Rlt_bool 0 ((t1 - t0) * x)) = Rle_bool t0 t1).
    { intros x Hx. split; [apply Rmult_integral_contrapositive_currified; lra|].
      destruct (Rtotal_order t0 t1) as [H|[H|H]]; [|lra|].
      - rewrite (Rle_bool_true t0 t1) by lra. destruct (Rtotal_order x 0) as [X|[X|X]]; [|lra|].
        + assert (0 < (t1 - t0) * - x) by (apply Rmult_lt_0_compat; lra). rewrite !Rlt_bool_false by lra. reflexivity.
        + assert (0 < (t1 - t0) * x) by (apply Rmult_lt_0_compat; lra). rewrite !Rlt_bool_true by lra. reflexivity.
      - rewrite (Rle_bool_false t0 t1) by lra. destruct (Rtotal_order x 0) as [X|[X|X]]; [|lra|].
        + assert (0 < (t0 - t1) * - x) by (apply Rmult_lt_0_compat; lra). rewrite (Rlt_bool_false 0 x), (Rlt_bool_true 0 ((t1 - t0) * x)) by lra. reflexivity.
        + assert (0 < (t0 - t1) * x) by (apply Rmult_lt_0_compat; lra). rewrite (Rlt_bool_true 0 x), (Rlt_bool_false 0 ((t1 - t0) * x)) by lra. reflexivity. }
    destruct (Req_dec (px U) 0) as [Ex|Ex].
    - destruct HU as [HU|HU]; [lra|]. destruct (K (py U) HU) as (N & E).
      rewrite Ex, Rmult_0_r, (Req_bool_true 0 0) by auto. rewrite (Req_bool_false (py U) 0), (Req_bool_false ((t1 - t0) * py U) 0) by auto.
      cbn [andb orb negb]. exact E.
    - destruct (K (px U) Ex) as (N & E). rewrite (Req_bool_false (px U) 0), (Req_bool_false ((t1 - t0) * px U) 0) by auto.
      cbn [andb orb negb]. exact E.
  Qed.

  Lemma collinear_ok t0 t1 : collinear_case a b (L t0) (L t1) = clipI (Rmin t0 t1) (Rmax t0 t1).
  Proof.
    pose proof D_pos as HD. unfold collinear_case.
    set (U := Pt (px b - px a)%num (py b - py a)%num).
    assert (HU : px U <> 0 \/ py U <> 0).
    { unfold U. rsimp. cbn [px py]. destruct (Req_dec (px b - px a) 0) as [Ex|]; auto. right. intros Ey. destruct Hab. apply pt_eq; lra. }
    assert (EV : to_vector (Pt (px (L t0) - px a)%num (py (L t0) - py a)%num) (Pt (px (L t1) - px a)%num (py (L t1) - py a)%num)
                 = Pt ((t1 - t0) * px U) ((t1 - t0) * py U)).
    { unfold to_vector, U, at_. rsimp. cbn [px py]. f_equal; ring. }
    rewrite EV. replace (Pt (px U) (py U)) with U by reflexivity. rewrite aligned_ok by auto.
    assert (CB : cross_product (Pt (- py U)%num (px U)) U = - D).
    { unfold cross_product, U. rsimp. cbn [px py]. ring. }
    assert (CT : forall t, cross_product (Pt (- py U)%num (px U)) (Pt (px (L t) - px a)%num (py (L t) - py a)%num) = - t * D).
    { intros t. unfold cross_product, U, at_. rsimp. cbn [px py]. ring. }
    assert (G : forall lo hi, lo <= hi ->
      (if negb (overlap (nofZ 0) (- D) (- lo * D) (- hi * D)) then None
       else Some (if Rlt_bool (- lo * D) 0 then L lo else a, if Rlt_bool (- D) (- hi * D) then L hi else b)) = clipI lo hi).
    { intros lo hi Hl. change (nofZ 0) with 0. rewrite overlap_ok by auto. unfold clipI. rcase; cbn [negb]; auto.
      do 2 f_equal.
      - destruct (Rlt_or_le 0 lo).
        + rewrite Rlt_bool_true by nra. rewrite Rmax_right by lra. reflexivity.
        + rewrite Rlt_bool_false by nra. rewrite Rmax_left by lra. now rewrite at_0.
      - destruct (Rlt_or_le hi 1).
        + rewrite Rlt_bool_true by nra. rewrite Rmin_right by lra. reflexivity.
        + rewrite Rlt_bool_false by nra. rewrite Rmin_left by lra. now rewrite at_1. }
    destruct (Rle_or_lt t0 t1) as [H|H].
    - rewrite (Rle_bool_true t0 t1) by auto. rewrite CB, !CT. rewrite Rmin_left, Rmax_right by lra. rewrite <- G by auto. reflexivity.
    - rewrite (Rle_bool_false t0 t1) by auto. rewrite CB, !CT. rewrite Rmin_right, Rmax_left by lra. rewrite <- G by lra. reflexivity.
  Qed.

  Lemma to_point_L t : to_point t a (to_vector a b) = L t.
  Proof. unfold to_point, to_vector, at_. rsimp. reflexivity. Qed.

  Lemma finish_ok ia ib t0 t1 : (t0 = t1 -> ia = true -> t0 = 0) -> (t0 = t1 -> ib = true -> t0 = 1) ->
    ~ (Rmin t0 t1 < 0 /\ 1 < Rmax t0 t1) ->
    cb_finish a b (to_vector a b) ia ib t0 t1 = clipI (Rmin t0 t1) (Rmax t0 t1).
  Proof.
    intros HA HB HN. unfold cb_finish. rsimp.
    assert (G : forall lo hi, lo < hi -> ~ (lo < 0 /\ 1 < hi) ->
      (if (Rle_bool 0 lo && Rlt_bool lo 1) && (Rlt_bool 0 hi && Rle_bool hi 1) then Some (L lo, L hi)
       else if Rle_bool 0 lo && Rlt_bool lo 1 then Some (L lo, b)
       else if Rlt_bool 0 hi && Rle_bool hi 1 then Some (a, L hi) else None) = clipI lo hi).
    { intros lo hi Hl Hn. unfold clipI. destruct (Rmax_cases 0 lo) as ((M1 & M2) & M3). destruct (Rmin_cases 1 hi) as ((N1 & N2) & N3).
      repeat (rcase; cbn [andb]); try reflexivity; try (exfalso; lra); apply f_equal; apply f_equal2;
        first [apply (f_equal (at_ a b)); lra | transitivity (L 0); [now rewrite at_0|apply (f_equal (at_ a b)); lra]
              | transitivity (L 1); [now rewrite at_1|apply (f_equal (at_ a b)); lra]]. }
    destruct (Req_dec t0 t1) as [E|N].
    - rewrite (Req_bool_true t0 t1) by auto.
      assert (EI : clipI (Rmin t0 t1) (Rmax t0 t1) = None).
      { unfold clipI. rewrite E, (Rmin_left t1 t1), (Rmax_left t1 t1) by lra. rewrite Rlt_bool_false; auto.
        destruct (Rmax_cases 0 t1) as ((M1 & M2) & M3). destruct (Rmin_cases 1 t1) as ((N1 & N2) & N3). lra. }
      rewrite EI. destruct ia.
      + pose proof (HA E eq_refl) as Z0. rewrite (Req_bool_true t1 0) by lra. cbn [andb negb].
        destruct ib; cbn [andb]; auto. specialize (HB E eq_refl). lra.
      + cbn [andb]. destruct ib; cbn [andb]; auto. rewrite (Req_bool_true t0 1) by (apply HB; auto). reflexivity.
    - rewrite (Req_bool_false t0 t1) by auto. rewrite !to_point_L. destruct (Rlt_or_le t1 t0) as [H|H].
      + rewrite (Rlt_bool_true t1 t0) by auto. rewrite Rmin_right, Rmax_left in * by lra. apply G; auto.
      + rewrite (Rlt_bool_false t1 t0) by auto. rewrite Rmin_left, Rmax_right in * by lra. apply G; auto. lra.
  Qed.
End Clip.

(** ** the whole function *)
Theorem cyrus_beck_exact (a b : pt) poly tol : convex_ccw poly -> 0 < tol ->
  (forall x, x = a \/ x = b -> in_poly poly x \/ ~ near_boundary (2 * tol) poly x) ->
  exists r, cyrus_beck_line_polygon_clip a b poly tol = Ok r /\ clip_result (in_poly poly) a b r.
Proof.
  intros HC Ht HB. assert (Hn : poly <> []) by (destruct HC as (H & _); destruct poly; [cbn in H; lia|discriminate]).
  unfold cyrus_beck_line_polygon_clip. destruct (_ && _)%bool eqn:Es.
  { assert (E : a = b).
    { unfold to_vector in Es. rsimp. cbn [px py] in Es. rb. apply pt_eq; lra. }
    subst b. exists None. split; auto. intros x y (s & _ & ->) (t & _ & ->) _ _. unfold at_. apply pt_eq; cbn [px py]; ring. }
  assert (Hab : a <> b).
  { intros ->. unfold to_vector in Es. rsimp. cbn [px py] in Es. rewrite !Req_bool_true in Es by ring. discriminate. }
  assert (I : forall x i, x = a \/ x = b -> point_in_polygon_or_on_edge x poly tol = Ok i -> i = true <-> in_poly poly x).
  { intros x i Hx E. split.
    - intros ->. destruct (HB x Hx) as [H|H]; auto. destruct (pip_edge_sound poly HC x tol ltac:(lra) E) as [H'|H']; auto.
      now destruct H.
    - intros H. rewrite (pip_edge_complete poly HC x tol Ht H) in E. congruence. }
  destruct (pip_totalR a poly tol Hn) as (ia & Ea). destruct (pip_totalR b poly tol Hn) as (ib & Eb).
  pose proof (I a ia ltac:(auto) Ea) as Ia. pose proof (I b ib ltac:(auto) Eb) as Ib.
  rewrite Ea, Eb. cbn [bind].
  destruct (ia && ib)%bool eqn:Ei.
  { apply andb_true_iff in Ei as (-> & ->). exists (Some (a, b)). split; auto. split; auto. exists 0, 1.
    rewrite at_0, at_1. split; [lra|]. split; [lra|]. split; auto. split; auto. intros u Hu. split; auto. intros _.
    apply in_poly_at; auto; [now apply Ia|now apply Ib]. }
  destruct (aget_ok_pos poly 0) as (v & E & _).
  { destruct poly; [congruence|]. unfold zlen. simpl length. lia. }
  rewrite E. cbn [bind]. change (cross_product (to_vector a v) (to_vector a b)) with (side a b v).
  destruct (search_ok a b poly v E) as ([c|((k, i0), i1)] & -> & H); cbn [bind].
  - destruct H as (i & v0 & v1 & He & (F0 & F1) & ->). eexists. split; [reflexivity|].
    rewrite side_orient in F0, F1.
    destruct (on_line a b v0 Hab ltac:(lra)) as (t0 & ->). destruct (on_line a b v1 Hab ltac:(lra)) as (t1 & ->).
    rewrite (collinear_ok a b Hab). apply clipI_result; auto. intros t. apply edge_at_in in He. split.
    + intros Hp. assert (O : orient (at_ a b t0) (at_ a b t1) (at_ a b t) = 0) by (unfold orient, at_; cbn [px py]; ring).
      destruct (on_side poly _ _ _ HC Hp He O) as (u & Hu & Eu).
      assert (Et : at_ a b t = at_ a b (t0 + u * (t1 - t0))) by (rewrite Eu; unfold at_; apply pt_eq; cbn [px py]; ring).
      apply at_inj in Et; auto. subst t. destruct (Rle_or_lt t0 t1).
      * rewrite Rmin_left, Rmax_right by lra. nra.
      * rewrite Rmin_right, Rmax_left by lra. nra.
    + intros Htt. apply (seg_in_poly poly HC _ _ _ He).
      destruct (Req_dec t0 t1) as [->|Nt].
      * rewrite Rmin_left, Rmax_left in Htt by lra. replace t with t1 by lra. exists 0. split; [lra|]. now rewrite at_0.
      * exists ((t - t0) / (t1 - t0)). split; [|unfold at_; apply pt_eq; cbn [px py]; field; lra].
        destruct (Rle_or_lt t0 t1).
        -- rewrite Rmin_left, Rmax_right in Htt by lra. split; [apply Rmult_le_pos; [lra|left; apply Rinv_0_lt_compat; lra]|].
           apply (Rmult_le_reg_r (t1 - t0)); [lra|]. unfold Rdiv. rewrite Rmult_assoc, Rinv_l; lra.
        -- rewrite Rmin_right, Rmax_left in Htt by lra. replace ((t - t0) / (t1 - t0)) with ((t0 - t) / (t0 - t1)) by (field; lra).
           split; [apply Rmult_le_pos; [lra|left; apply Rinv_0_lt_compat; lra]|].
           apply (Rmult_le_reg_r (t0 - t1)); [lra|]. unfold Rdiv. rewrite Rmult_assoc, Rinv_l; lra.
  - destruct H as [(-> & HQ)|(-> & Hlt & (v0 & v01 & E0 & C0) & (v1 & v11 & E1 & C1) & HQ)]; cbn [Z.eqb].
    + eexists. split; [reflexivity|]. intros x y (s & _ & ->) (t & _ & ->) Hx Hy.
      apply (no_change_point a b poly Hab HC HQ); auto; try apply side_L; apply in_poly_hull; auto.
    + rewrite (intersections_ok a b poly i0 i1 v0 v01 v1 v11) by auto. cbn [bind]. eexists. split; [reflexivity|].
      assert (G : exists t0 t1, (if Rlt_bool (orient v1 v11 a) 0 then (param a b v1 v11, param a b v0 v01)
          else (param a b v0 v01, param a b v1 v11)) = (t0, t1) /\
          forall t, in_poly poly (at_ a b t) <-> Rmin t0 t1 <= t <= Rmax t0 t1).
      { apply edge_at_in in E0 as I0. apply edge_at_in in E1 as I1.
        assert (G : exists lo hi, (lo = param a b v0 v01 /\ hi = param a b v1 v11 \/ lo = param a b v1 v11 /\ hi = param a b v0 v01)
          /\ lo <= hi /\ forall t, in_poly poly (at_ a b t) <-> lo <= t <= hi).
        { destruct (two_changes a b poly i0 i1 v0 v01 v1 v11 Hlt E0 E1 C0 C1 HQ) as [(X & Y)|(X & Y)].
          - destruct (between_two a b poly HC v0 v01 v1 v11 I0 I1 X Y). eauto 10.
          - destruct (between_two a b poly HC v1 v11 v0 v01 I1 I0 Y X). eauto 10. }
        destruct G as (lo & hi & [(-> & ->)|(-> & ->)] & Hl & HP); destruct (Rlt_bool _ _); do 2 eexists; split; try reflexivity;
          intros t; rewrite HP; [rewrite Rmin_right, Rmax_left by auto|rewrite Rmin_left, Rmax_right by auto
                                |rewrite Rmin_left, Rmax_right by auto|rewrite Rmin_right, Rmax_left by auto]; reflexivity. }
      destruct G as (t0 & t1 & -> & HP). cbn [fst snd].
      assert (Pa : in_poly poly a <-> Rmin t0 t1 <= 0 <= Rmax t0 t1) by (rewrite <- HP, at_0; reflexivity).
      assert (Pb : in_poly poly b <-> Rmin t0 t1 <= 1 <= Rmax t0 t1) by (rewrite <- HP, at_1; reflexivity).
      rewrite finish_ok; auto.
      * apply clipI_result; auto.
      * intros -> Hi. apply Ia, Pa in Hi. rewrite Rmin_left, Rmax_left in Hi by lra. lra.
      * intros -> Hi. apply Ib, Pb in Hi. rewrite Rmin_left, Rmax_left in Hi by lra. lra.
      * intros (N1 & N2). assert (ia = true) by (apply Ia, Pa; lra). assert (ib = true) by (apply Ib, Pb; lra). subst. discriminate.
Qed.
