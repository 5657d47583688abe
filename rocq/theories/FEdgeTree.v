(** Edge queries in binary64: what the traversal skips, and what it reports. *)
From Coq Require Import Reals Lra Psatz Sorted.
From Flocq Require Import IEEE754.BinarySingleNaN Core.
From Verif Require Import RBase NumB64 NumRoom FBase FBuild MGeometry MCreation MAlgorithms MQuery MCelltree
  PStack PPartition SpecTree PBuild PWalk PCollect SpecQuery SpecApi PQuery PMesh PInit NumSub PPoints PApi PEdges PEdgesAny
  GEdges FPoint FLocate FCut FBoxClip SpecGeom.
Open Scope R_scope.

Lemma ok_eq {A} (x y : A) : Ok x = Ok y -> x = y.
Proof. intros H. injection H. auto. Qed.

(** ** Signs, also of infinite values *)
Definition ge0 (x : b64) : Prop := x = B754_infinity false \/ (is_finite x = true /\ 0 <= B2R x).
Definition le0 (x : b64) : Prop := x = B754_infinity true \/ (is_finite x = true /\ B2R x <= 0).

Lemma zb0 : is_finite (Zb 0) = true /\ B2R (Zb 0) = 0.
Proof. apply Zb_exact. lia. Qed.
Lemma zb1 : is_finite (Zb 1) = true /\ B2R (Zb 1) = 1.
Proof. apply Zb_exact. lia. Qed.

Lemma ge0_leb x : ge0 x -> nleb (Zb 0) x = true.
Proof.
  intros [->|(F & H)]; [vm_compute; reflexivity|]. destruct zb0 as (F0 & E0). rewrite nleb_B by auto.
  apply Rle_bool_true. lra.
Qed.
Lemma le0_leb x : le0 x -> nleb x (Zb 0) = true.
Proof.
  intros [->|(F & H)]; [vm_compute; reflexivity|]. destruct zb0 as (F0 & E0). rewrite nleb_B by auto.
  apply Rle_bool_true. lra.
Qed.
Lemma le0_leb1 x : le0 x -> nleb x (Zb 1) = true.
Proof.
  intros [->|(F & H)]; [vm_compute; reflexivity|]. destruct zb1 as (F0 & E0). rewrite nleb_B by auto.
  apply Rle_bool_true. lra.
Qed.

Lemma rnd_sign z : (0 <= z -> 0 <= rnd z) /\ (z <= 0 -> rnd z <= 0).
Proof.
  split; intros H; rewrite <- (proj2 zb0).
  - apply rnd_ge. now rewrite (proj2 zb0).
  - apply rnd_le. now rewrite (proj2 zb0).
Qed.
Lemma over_small z : z = 0 -> Rlt_bool (Rabs (rnd z)) (bpow radix2 emax) = true.
Proof. intros ->. rewrite round_0 by apply valid_rnd_round_mode. rewrite Rabs_R0. apply Rlt_bool_true, bpow_gt_0. Qed.

Lemma sign_pos (x : b64) : is_finite x = true -> Bsign x = false -> 0 <= B2R x.
Proof. destruct x as [[|]|[|]| |[|] m e Hb]; intros F S; try discriminate; cbn; try lra. apply F2R_ge_0. cbn. lia. Qed.
Lemma sign_neg (x : b64) : is_finite x = true -> Bsign x = true -> B2R x <= 0.
Proof. destruct x as [[|]|[|]| |[|] m e Hb]; intros F S; try discriminate; cbn; try lra. apply F2R_le_0. cbn. lia. Qed.
Lemma is_inf (x : b64) s : B2SF x = SpecFloat.S754_infinity s -> x = B754_infinity s.
Proof. destruct x; cbn; intros H; inversion H; auto. Qed.

(** the difference has the right sign *)
Lemma minus_sign (x y : b64) : is_finite x = true -> is_finite y = true ->
  (B2R y <= B2R x -> ge0 (nsub x y)) /\ (B2R x <= B2R y -> le0 (nsub x y)).
Proof.
  intros Fx Fy. pose proof (Bminus_correct prec emax prec_gt prec_lt mode_NE x y Fx Fy) as H.
  destruct (Rlt_bool _ _) eqn:E in H.
  - destruct H as (HR & HF & _). destruct (rnd_sign (B2R x - B2R y)) as (S1 & S2).
    split; intros L; right; (split; [exact HF|]); cbn [nsub NumB64]; rewrite HR; [apply S1|apply S2]; lra.
  - destruct H as (HS & HB). cbn in HS. apply is_inf in HS. cbn [nsub NumB64]. rewrite HS.
    assert (N : B2R x - B2R y <> 0) by (intros Z; rewrite over_small in E by auto; discriminate).
    destruct (Bsign x) eqn:Sx; symmetry in HB.
    + apply Bool.negb_true_iff in HB. pose proof (sign_neg x Fx Sx). pose proof (sign_pos y Fy HB).
      split; intros L; [exfalso; lra|left; reflexivity].
    + apply Bool.negb_false_iff in HB. pose proof (sign_pos x Fx Sx). pose proof (sign_neg y Fy HB).
      split; intros L; [left; reflexivity|exfalso; lra].
Qed.

Lemma sub_ge0 (x y : b64) : is_finite y = true -> nleb y x = true -> ge0 (nsub x y).
Proof.
  intros Fy H. destruct (is_finite x) eqn:Fx.
  - rewrite nleb_B in H by auto. apply (minus_sign x y Fx Fy). revert H. case Rle_bool_spec; auto; discriminate.
  - destruct x as [s|[|]| |s m e Hb], y as [s'|s'| |s' m' e' Hb']; try discriminate; try (left; reflexivity);
      exfalso; revert H; cbn; try destruct s'; discriminate.
Qed.
Lemma sub_le0 (x y : b64) : is_finite y = true -> nleb x y = true -> le0 (nsub x y).
Proof.
  intros Fy H. destruct (is_finite x) eqn:Fx.
  - rewrite nleb_B in H by auto. apply (minus_sign x y Fx Fy). revert H. case Rle_bool_spec; auto; discriminate.
  - destruct x as [s|[|]| |s m e Hb], y as [s'|s'| |s' m' e' Hb']; try discriminate; try (left; reflexivity);
      exfalso; revert H; cbn; try destruct s'; discriminate.
Qed.

(** and so has the quotient *)
Lemma div_sign (x d : b64) : is_finite d = true -> B2R d <> 0 -> ge0 x \/ le0 x ->
  (0 < B2R d -> (ge0 x -> ge0 (ndivraw x d)) /\ (le0 x -> le0 (ndivraw x d)))
  /\ (B2R d < 0 -> (ge0 x -> le0 (ndivraw x d)) /\ (le0 x -> ge0 (ndivraw x d))).
Proof.
  intros Fd Hd Hx. destruct (is_finite x) eqn:Fx.
  - assert (G : forall z, ge0 x -> z = B2R x -> 0 <= z).
    { intros z [->|(_ & ?)] ->; [discriminate Fx|auto]. }
    assert (L : forall z, le0 x -> z = B2R x -> z <= 0).
    { intros z [->|(_ & ?)] ->; [discriminate Fx|auto]. }
    pose proof (Bdiv_correct prec emax prec_gt prec_lt mode_NE x d Hd) as H.
    destruct (Rlt_bool _ _) eqn:E in H.
    + destruct H as (HR & HF & _). rewrite Fx in HF. destruct (rnd_sign (B2R x / B2R d)) as (S1 & S2).
      split; intros D; split; intros X; right; (split; [exact HF|]); cbn [ndivraw NumB64]; rewrite HR.
      * apply S1. apply Rmult_le_pos; [eapply G; eauto|]. left. now apply Rinv_0_lt_compat.
      * apply S2. pose proof (L _ X eq_refl). pose proof (Rinv_0_lt_compat _ D). unfold Rdiv. nra.
      * apply S2. pose proof (G _ X eq_refl). pose proof (Rinv_lt_0_compat _ D). unfold Rdiv. nra.
      * apply S1. pose proof (L _ X eq_refl). pose proof (Rinv_lt_0_compat _ D). unfold Rdiv. nra.
    + cbn in H. apply is_inf in H. cbn [ndivraw NumB64]. rewrite H.
      assert (N : B2R x <> 0).
      { intros Z. rewrite over_small in E; [discriminate|]. rewrite Z. unfold Rdiv. ring. }
      assert (SX : (0 < B2R x -> Bsign x = false) /\ (B2R x < 0 -> Bsign x = true)).
      { destruct (Bsign x) eqn:Sx; [pose proof (sign_neg x Fx Sx)|pose proof (sign_pos x Fx Sx)]; split; intros; auto; lra. }
      assert (SD : (0 < B2R d -> Bsign d = false) /\ (B2R d < 0 -> Bsign d = true)).
      { destruct (Bsign d) eqn:Sx; [pose proof (sign_neg d Fd Sx)|pose proof (sign_pos d Fd Sx)]; split; intros; auto; lra. }
      split; intros D; split; intros X; left; f_equal.
      * rewrite (proj1 SD D), (proj1 SX); auto. pose proof (G _ X eq_refl). lra.
      * rewrite (proj1 SD D), (proj2 SX); auto. pose proof (L _ X eq_refl). lra.
      * rewrite (proj2 SD D), (proj1 SX); auto. pose proof (G _ X eq_refl). lra.
      * rewrite (proj2 SD D), (proj2 SX); auto. pose proof (L _ X eq_refl). lra.
  - assert (SD : (0 < B2R d -> Bsign d = false) /\ (B2R d < 0 -> Bsign d = true)).
    { destruct (Bsign d) eqn:Sx; [pose proof (sign_neg d Fd Sx)|pose proof (sign_pos d Fd Sx)]; split; intros; auto; lra. }
    assert (Q : forall s, ndivraw (B754_infinity s) d = B754_infinity (xorb s (Bsign d))).
    { intros s. destruct d; try discriminate; reflexivity. }
    split; intros D; split; (intros [->|(F & _)]; [|congruence]); rewrite Q; [rewrite (proj1 SD D)|rewrite (proj1 SD D)|rewrite (proj2 SD D)|rewrite (proj2 SD D)]; left; reflexivity.
Qed.

Lemma one_minus (t : b64) : (le0 t -> nleb (Zb 0) (nsub (Zb 1) t) = true) /\ (ge0 t -> nleb (nsub (Zb 1) t) (Zb 1) = true).
Proof.
  destruct zb1 as (F1 & E1). split.
  - intros [->|(F & H)]; [vm_compute; reflexivity|]. apply ge0_leb. apply (minus_sign (Zb 1) t F1 F). lra.
  - intros [->|(F & H)]; [vm_compute; reflexivity|].
    assert (S1 : Bsign (Zb 1) = false) by (vm_compute; reflexivity). revert F1 E1 S1. generalize (Zb 1). intros o F1 E1 S1.
    pose proof (Bminus_correct prec emax prec_gt prec_lt mode_NE o t F1 F) as HB.
    destruct (Rlt_bool _ _) eqn:E in HB.
    + destruct HB as (HR & HF & _). rewrite nleb_B by auto. apply Rle_bool_true. cbn [nsub NumB64]. rewrite HR.
      apply rnd_le. lra.
    + destruct HB as (_ & HB). exfalso. rewrite S1 in HB. symmetry in HB. apply Bool.negb_false_iff in HB.
      pose proof (sign_neg t F HB). assert (EZ : B2R t = 0) by lra. rewrite EZ, Rminus_0_r, E1 in E.
      revert E. case Rlt_bool_spec; [discriminate|]. intros L _.
      assert (rnd 1 <= B2R o) by (apply rnd_le; lra). destruct (rnd_sign 1) as (P & _). specialize (P ltac:(lra)).
      rewrite Rabs_pos_eq in L by lra.
      assert (1 < bpow radix2 emax) by (change 1 with (bpow radix2 0); apply bpow_lt; reflexivity). lra.
Qed.

(** ** The children that are skipped *)
Lemma pcoord_sub (a b : point b64) d : pcoord (to_vector a b) d = nsub (pcoord b d) (pcoord a d).
Proof. destruct d; reflexivity. Qed.

Section Prune.
  Local Notation bounded := NumRoom.bounded.
  Variable k : Z.
  Hypothesis Hk : (-150 <= k <= 250)%Z.
  Variables a b : point b64.
  Hypothesis (Ba : bpt k a) (Bb : bpt k b).

  Lemma pc_bounded x d : bpt k x -> bounded k (pcoord x d).
  Proof. intros (H1 & H2). destruct d; auto. Qed.

  (** the sign of the extent *)
  Lemma extent_sign d : let dx := pcoord (to_vector a b) d in
    is_finite dx = true /\ (0 < B2R dx <-> B2R (pcoord a d) < B2R (pcoord b d)) /\ (B2R dx < 0 <-> B2R (pcoord b d) < B2R (pcoord a d)).
  Proof.
    intros dx. unfold dx. rewrite pcoord_sub.
    destruct (diff_err k Hk _ _ (pc_bounded b d Bb) (pc_bounded a d Ba)) as ((F & _) & e & He & E). split; auto.
    rewrite E. pose proof uro_small. apply Rabs_le_iff in He. split; split; intros H'; nra.
  Qed.

  (** the lower end of the segment is not beyond Lmax: the left child is visited *)
  Lemma left_visited nd l (lo : b64) : edge_children a b nd = Ok l ->
    (lo = pcoord a (ndim nd) \/ lo = pcoord b (ndim nd)) -> B2R lo = Rmin (B2R (pcoord a (ndim nd))) (B2R (pcoord b (ndim nd))) ->
    nleb lo (nLmax nd) = true -> In (nchild nd) l.
  Proof.
    intros El Hlo Emin HL. set (d := ndim nd) in *.
    destruct (pc_bounded a d Ba) as (FA & _). destruct (pc_bounded b d Bb) as (FB & _).
    assert (LE : forall x, is_finite x = true -> B2R x = B2R lo -> nleb x (nLmax nd) = true).
    { intros x Fx Ex. assert (Flo : is_finite lo = true) by (destruct Hlo; subst; auto).
      destruct (is_finite (nLmax nd)) eqn:FL.
      - rewrite nleb_B in HL |- * by auto. now rewrite Ex.
      - destruct (nLmax nd) as [s|[|]| |s m e Hb]; try discriminate; destruct lo as [s'|s'| |s' m' e' Hb'], x as [s2|s2| |s2 m2 e2 Hb2];
          try discriminate; auto; exfalso; revert HL; cbn; try destruct s'; discriminate. }
    destruct (extent_sign d) as (Fd & P & N).
    destruct zb0 as (F0 & E0).
    assert (ONE : forall c2 : bool, In (nchild nd) (if (true && c2)%bool then [nchild nd; (nchild nd + 1)%Z]
      else if true then [nchild nd] else if c2 then [(nchild nd + 1)%Z] else [])).
    { intros [|]; cbn; auto. }
    unfold edge_children in El. cbv zeta in El. fold d in El. set (dx := pcoord (to_vector a b) d) in *.
    change (@nofZ b64 _) with Zb in El.
    assert (Cases : 0 < B2R dx \/ B2R dx < 0 \/ B2R dx = 0) by lra.
    destruct Cases as [C|[C|C]].
    - assert (C1 : nltb (Zb 0) dx = true) by (rewrite nltb_B by auto; apply Rlt_bool_true; lra). rewrite C1 in El.
      assert (G : ge0 (nsub (nLmax nd) (pcoord a d))).
      { apply sub_ge0; auto. apply LE; auto. rewrite Emin, Rmin_left; auto. apply P in C. lra. }
      rewrite (ge0_leb _ G) in El.
      assert (D : forall x, ndiv x dx = Ok (ndivraw x dx)).
      { intros x. unfold ndiv. change (@nofZ b64 _) with Zb. rewrite neqb_B by auto. rewrite Req_bool_false by lra. reflexivity. }
      rewrite D in El. cbn [bind] in El.
      rewrite (ge0_leb _ (proj1 (proj1 (div_sign _ dx Fd ltac:(lra) (or_introl G)) C) G)) in El.
      destruct (nleb (nsub (nRmin nd) (pcoord b d)) (Zb 0)); [rewrite D in El|]; cbn [bind] in El; apply ok_eq in El; subst l; apply ONE.
    - assert (C1 : nltb (Zb 0) dx = false) by (rewrite nltb_B by auto; apply Rlt_bool_false; lra). rewrite C1 in El.
      assert (C2 : nltb dx (Zb 0) = true) by (rewrite nltb_B by auto; apply Rlt_bool_true; lra). rewrite C2 in El.
      assert (G : ge0 (nsub (nLmax nd) (pcoord b d))).
      { apply sub_ge0; auto. apply LE; auto. rewrite Emin, Rmin_right; auto. apply N in C. lra. }
      rewrite (ge0_leb _ G) in El.
      assert (D : forall x, ndiv x dx = Ok (ndivraw x dx)).
      { intros x. unfold ndiv. change (@nofZ b64 _) with Zb. rewrite neqb_B by auto. rewrite Req_bool_false by lra. reflexivity. }
      rewrite D in El. cbn [bind] in El.
      rewrite (proj1 (one_minus _) (proj1 (proj2 (div_sign _ dx Fd ltac:(lra) (or_introl G)) C) G)) in El.
      destruct (nleb (nsub (nRmin nd) (pcoord a d)) (Zb 0)); [rewrite D in El|]; cbn [bind] in El; apply ok_eq in El; subst l; apply ONE.
    - assert (C1 : nltb (Zb 0) dx = false) by (rewrite nltb_B by auto; apply Rlt_bool_false; lra). rewrite C1 in El.
      assert (C2 : nltb dx (Zb 0) = false) by (rewrite nltb_B by auto; apply Rlt_bool_false; lra). rewrite C2 in El.
      assert (EQ : B2R (pcoord a d) = B2R (pcoord b d)).
      { apply Rle_antisym; apply Rnot_lt_le; intros H; [apply N in H|apply P in H]; lra. }
      assert (G : ge0 (nsub (nLmax nd) (pcoord b d))).
      { apply sub_ge0; auto. apply LE; auto. rewrite Emin, EQ, Rmin_left; lra. }
      rewrite (ge0_leb _ G) in El. cbn [bind] in El. apply ok_eq in El. subst l. apply ONE.
  Qed.

  Lemma right_visited nd l (hi : b64) : edge_children a b nd = Ok l ->
    (hi = pcoord a (ndim nd) \/ hi = pcoord b (ndim nd)) -> B2R hi = Rmax (B2R (pcoord a (ndim nd))) (B2R (pcoord b (ndim nd))) ->
    nleb (nRmin nd) hi = true -> In (nchild nd + 1)%Z l.
  Proof.
    intros El Hhi Emax HR. set (d := ndim nd) in *.
    destruct (pc_bounded a d Ba) as (FA & _). destruct (pc_bounded b d Bb) as (FB & _).
    assert (LE : forall x, is_finite x = true -> B2R x = B2R hi -> nleb (nRmin nd) x = true).
    { intros x Fx Ex. assert (Fhi : is_finite hi = true) by (destruct Hhi; subst; auto).
      destruct (is_finite (nRmin nd)) eqn:FL.
      - rewrite nleb_B in HR |- * by auto. now rewrite Ex.
      - destruct (nRmin nd) as [s|[|]| |s m e Hb]; try discriminate; destruct hi as [s'|s'| |s' m' e' Hb'], x as [s2|s2| |s2 m2 e2 Hb2];
          try discriminate; auto; exfalso; revert HR; cbn; try destruct s'; discriminate. }
    destruct (extent_sign d) as (Fd & P & N).
    destruct zb0 as (F0 & E0).
    assert (TWO : forall c1 : bool, In (nchild nd + 1)%Z (if (c1 && true)%bool then [nchild nd; (nchild nd + 1)%Z]
      else if c1 then [nchild nd] else if true then [(nchild nd + 1)%Z] else [])).
    { intros [|]; cbn; auto. }
    unfold edge_children in El. cbv zeta in El. fold d in El. set (dx := pcoord (to_vector a b) d) in *.
    change (@nofZ b64 _) with Zb in El.
    assert (Cases : 0 < B2R dx \/ B2R dx < 0 \/ B2R dx = 0) by lra.
    destruct Cases as [C|[C|C]].
    - assert (C1 : nltb (Zb 0) dx = true) by (rewrite nltb_B by auto; apply Rlt_bool_true; lra). rewrite C1 in El.
      assert (G : le0 (nsub (nRmin nd) (pcoord b d))).
      { apply sub_le0; auto. apply LE; auto. rewrite Emax, Rmax_right; auto. apply P in C. lra. }
      rewrite (le0_leb _ G) in El.
      assert (D : forall x, ndiv x dx = Ok (ndivraw x dx)).
      { intros x. unfold ndiv. change (@nofZ b64 _) with Zb. rewrite neqb_B by auto. rewrite Req_bool_false by lra. reflexivity. }
      rewrite (D (nsub (nRmin nd) _)) in El. cbn [bind] in El.
      rewrite (le0_leb1 _ (proj2 (proj1 (div_sign _ dx Fd ltac:(lra) (or_intror G)) C) G)) in El.
      destruct (nleb (Zb 0) (nsub (nLmax nd) (pcoord a d))); [rewrite D in El|]; cbn [bind] in El; apply ok_eq in El; subst l; apply TWO.
    - assert (C1 : nltb (Zb 0) dx = false) by (rewrite nltb_B by auto; apply Rlt_bool_false; lra). rewrite C1 in El.
      assert (C2 : nltb dx (Zb 0) = true) by (rewrite nltb_B by auto; apply Rlt_bool_true; lra). rewrite C2 in El.
      assert (G : le0 (nsub (nRmin nd) (pcoord a d))).
      { apply sub_le0; auto. apply LE; auto. rewrite Emax, Rmax_left; auto. apply N in C. lra. }
      rewrite (le0_leb _ G) in El.
      assert (D : forall x, ndiv x dx = Ok (ndivraw x dx)).
      { intros x. unfold ndiv. change (@nofZ b64 _) with Zb. rewrite neqb_B by auto. rewrite Req_bool_false by lra. reflexivity. }
      rewrite (D (nsub (nRmin nd) _)) in El. cbn [bind] in El.
      rewrite (proj2 (one_minus _) (proj2 (proj2 (div_sign _ dx Fd ltac:(lra) (or_intror G)) C) G)) in El.
      destruct (nleb (Zb 0) (nsub (nLmax nd) (pcoord b d))); [rewrite D in El|]; cbn [bind] in El; apply ok_eq in El; subst l; apply TWO.
    - assert (C1 : nltb (Zb 0) dx = false) by (rewrite nltb_B by auto; apply Rlt_bool_false; lra). rewrite C1 in El.
      assert (C2 : nltb dx (Zb 0) = false) by (rewrite nltb_B by auto; apply Rlt_bool_false; lra). rewrite C2 in El.
      assert (EQ : B2R (pcoord a d) = B2R (pcoord b d)).
      { apply Rle_antisym; apply Rnot_lt_le; intros H; [apply N in H|apply P in H]; lra. }
      assert (G : le0 (nsub (nRmin nd) (pcoord a d))).
      { apply sub_le0; auto. apply LE; auto. rewrite Emax, EQ, Rmax_left; lra. }
      rewrite (le0_leb _ G) in El. cbn [bind] in El. apply ok_eq in El. subst l. apply TWO.
  Qed.
End Prune.

(** ** More rounds do not change the clip *)
Lemma cs_loop_more {T} {NT : Num T} (K : box T) fuel : forall a b k1 k2 r more, (fuel <= more)%nat ->
  cs_loop K fuel a b k1 k2 = Ok r -> cs_loop K more a b k1 k2 = Ok r.
Proof.
  induction fuel as [|fuel IH]; intros a b k1 k2 r more Hm H.
  - cbn [cs_loop] in H. destruct more as [|more]; cbn [cs_loop]; destruct (Z.lor k1 k2 =? 0)%Z; auto; discriminate.
  - destruct more as [|more]; [lia|]. cbn [cs_loop] in H |- *. destruct (Z.lor k1 k2 =? 0)%Z; auto.
    destruct (negb (Z.land k1 k2 =? 0)%Z); auto.
    destruct (cs_move _ _ _ _ _) as [xy|]; cbn [bind] in H |- *; auto.
    destruct (_ && _)%bool; auto. apply (IH _ _ _ _ _ more); auto. lia.
Qed.
Lemma cs_more {T} {NT : Num T} (K : box T) a b r fuel more : (fuel <= more)%nat ->
  cohen_sutherland_line_box_clip fuel a b K = Ok r -> cohen_sutherland_line_box_clip more a b K = Ok r.
Proof.
  intros Hm. unfold cohen_sutherland_line_box_clip. destruct (_ && _)%bool; auto. now apply cs_loop_more.
Qed.

(** ** Edge queries *)
Definition bounded_box (k : Z) (K : box b64) : Prop :=
  NumRoom.bounded k (xmin K) /\ NumRoom.bounded k (xmax K) /\ NumRoom.bounded k (ymin K) /\ NumRoom.bounded k (ymax K).

Section FTree.
  Local Notation bounded := NumRoom.bounded.
  Variable k : Z.
  Hypothesis Hk : (-150 <= k <= 249)%Z.
  Variable tree : celltree b64.
  Hypothesis Hv : valid_tree tree.
  Notation bbc := (bb_coords tree).
  Hypothesis HB : Forall (bounded_box k) bbc.
  Hypothesis HT : bounded_box k (bbox tree).
  Hypothesis PB : plain_box (rbox (bbox tree)).

  Definition query_edge (ab : point b64 * point b64) : Prop :=
    bpt k (fst ab) /\ bpt k (snd ab) /\ plain_segment (rp (fst ab)) (rp (snd ab))
    /\ corners_clear (8 * eps_of k) (rp (fst ab)) (rp (snd ab)) (rbox (bbox tree)).

  Lemma clip_64 a b : query_edge (a, b) -> exists c, (forall cs, (4 <= cs)%nat -> cohen_sutherland_line_box_clip cs a b (bbox tree) = Ok c)
    /\ (c = None -> rp a = rp b \/ forall x, on_segment (rp a) (rp b) x -> ~ deep (4 * eps_of k) (rbox (bbox tree)) x).
  Proof.
    intros (Ha & Hb & PS & CL). cbn [fst snd] in *.
    assert (Dec : rp a = rp b \/ rp a <> rp b).
    { destruct (Req_dec (px (rp a)) (px (rp b))) as [E1|E1]; [|right; congruence].
      destruct (Req_dec (py (rp a)) (py (rp b))) as [E2|E2]; [|right; congruence].
      left. destruct (rp a) as [u v], (rp b) as [u2 v2]. cbn [px py] in E1, E2. congruence. }
    destruct Dec as [E|NE].
    - exists None. split; [|auto]. intros cs _. unfold cohen_sutherland_line_box_clip.
      rewrite (proj2 (diff_eqb k ltac:(lia) a b Ha Hb) E). reflexivity.
    - destruct (cohen_sutherland_64 k Hk (bbox tree) HT PB a b Ha Hb PS CL 4 (le_n 4) NE) as (c & Ec & Hc).
      exists c. split; [intros cs Hcs; apply (cs_more _ _ _ _ 4); auto|].
      intros ->. right. exact Hc.
  Qed.

  Theorem fedges (f : garbage b64 -> nat -> Z -> point b64 -> point b64 -> res (option (option (point b64) * option (point b64))))
        (hh : point b64 * point b64 -> Z -> option (option (point b64) * option (point b64))) edges :
    Forall query_edge edges ->
    (forall ab, In ab edges -> forall g cs e, (4 <= cs)%nat -> (0 <= e < zlen bbc)%Z -> f g cs e (fst ab) (snd ab) = Ok (hh ab e)) ->
    exists rows, (forall g csfuel n_chunks, (4 <= csfuel)%nat -> (1 <= n_chunks)%nat ->
         locate_edges g csfuel (f g csfuel) edges tree n_chunks = Ok rows)
      /\ NoDup (map fst rows) /\ StronglySorted Z.le (map (fun r => fst (fst r)) rows)
      /\ (forall i j c, In ((i, j), c) rows ->
           exists ab, (0 <= i)%Z /\ nth_error edges (Z.to_nat i) = Some ab /\ (0 <= j < zlen bbc)%Z /\ hh ab j = Some c)
      /\ (forall i j ab K c x, (0 <= i)%Z -> (0 <= j)%Z -> nth_error edges (Z.to_nat i) = Some ab ->
           nth_error bbc (Z.to_nat j) = Some K -> hh ab j = Some c ->
           rp (fst ab) <> rp (snd ab) -> on_segment (rp (fst ab)) (rp (snd ab)) x -> in_box (rbox K) x ->
           deep (4 * eps_of k) (rbox (bbox tree)) x -> In ((i, j), c) rows)
      /\ (forall g csfuel buffer, (4 <= csfuel)%nat -> buffer <> [] -> exists unused,
         query_loop (grow_ g)
           (fun ab index rows size => locate_edge g csfuel (f g csfuel) ab tree rows size index)
           (retry_fuel tree) edges 0 buffer 0 0
         = Ok (rows ++ unused, zlen rows)).
  Proof.
    intros HQ Hf. rewrite Forall_forall in HQ.
    set (need := fun (ab : point b64 * point b64) j => exists K x, nth_error bbc (Z.to_nat j) = Some K
      /\ rp (fst ab) <> rp (snd ab) /\ on_segment (rp (fst ab)) (rp (snd ab)) x /\ in_box (rbox K) x
      /\ deep (4 * eps_of k) (rbox (bbox tree)) x).
    destruct (edges_chunks tree (fun cs => (4 <= cs)%nat) f hh
      (fun ab js => NoDup js /\ (forall j, In j js -> (0 <= j < zlen bbc)%Z) /\ forall j, (0 <= j < zlen bbc)%Z -> need ab j -> In j js) edges)
      as (jss & HF & Hrun & Hbuf).
    { intros (a, b) Hab. destruct (clip_64 a b (HQ _ Hab)) as (c & Ec & Hnone). destruct (HQ _ Hab) as (Ha & Hb & _). cbn [fst snd] in Ha, Hb.
      assert (Hk' : (-150 <= k <= 250)%Z) by lia.
      destruct (locate_edge_runs tree Hv (fun cs => (4 <= cs)%nat) f (hh (a, b)) a b
                  (fun e => forall K, aget bbc e = Ok K -> boxes_apart (rp a) (rp b) (rbox K)) c) as (vis & prn & Hp & HP & Hvis & Hr).
      - intros g cs e Hcs He. exact (Hf (a, b) Hab g cs e Hcs He).
      - exact Ec.
      - intros nd l e K Hch Hin Ek Hle K' Ek'. rewrite Ek in Ek'. apply ok_eq in Ek'. subst K'. exists (ndim nd). left.
        assert (BK : bounded_box k K).
        { rewrite Forall_forall in HB. apply HB. eapply aget_in; eauto. }
        destruct BK as (K1 & K2 & K3 & K4).
        set (d := ndim nd) in *.
        destruct (pc_bounded k a d Ha) as (FA & _). destruct (pc_bounded k b d Hb) as (FB & _).
        assert (FK : is_finite (side_hi d K) = true) by (destruct d; [apply K4|apply K2]).
        assert (EL : exists lo, (lo = pcoord a d \/ lo = pcoord b d) /\ B2R lo = Rmin (B2R (pcoord a d)) (B2R (pcoord b d))).
        { destruct (Rle_lt_dec (B2R (pcoord a d)) (B2R (pcoord b d))); [exists (pcoord a d)|exists (pcoord b d)]; split; auto;
            [rewrite Rmin_left|rewrite Rmin_right]; lra. }
        destruct EL as (lo & Hlo & Elo).
        assert (Flo : is_finite lo = true) by (destruct Hlo; subst; auto).
        replace (side_hi d (rbox K)) with (B2R (side_hi d K)) by (destruct d; reflexivity).
        replace (side_lo d (seg_box (rp a) (rp b))) with (B2R lo) by (rewrite Elo; destruct d; reflexivity).
        apply Rnot_le_lt. intros Hc. apply Hin. apply (left_visited k Hk' a b Ha Hb nd l lo); auto.
        apply nle_trans with (side_hi d K); auto. rewrite nleb_B by auto. now apply Rle_bool_true.
      - intros nd l e K Hch Hin Ek Hle K' Ek'. rewrite Ek in Ek'. apply ok_eq in Ek'. subst K'. exists (ndim nd). right.
        assert (BK : bounded_box k K).
        { rewrite Forall_forall in HB. apply HB. eapply aget_in; eauto. }
        destruct BK as (K1 & K2 & K3 & K4).
        set (d := ndim nd) in *.
        destruct (pc_bounded k a d Ha) as (FA & _). destruct (pc_bounded k b d Hb) as (FB & _).
        assert (FK : is_finite (side_lo d K) = true) by (destruct d; [apply K3|apply K1]).
        assert (EL : exists hi, (hi = pcoord a d \/ hi = pcoord b d) /\ B2R hi = Rmax (B2R (pcoord a d)) (B2R (pcoord b d))).
        { destruct (Rle_lt_dec (B2R (pcoord a d)) (B2R (pcoord b d))); [exists (pcoord b d)|exists (pcoord a d)]; split; auto;
            [rewrite Rmax_right|rewrite Rmax_left]; lra. }
        destruct EL as (hi & Hhi & Ehi).
        assert (Fhi : is_finite hi = true) by (destruct Hhi; subst; auto).
        replace (side_lo d (rbox K)) with (B2R (side_lo d K)) by (destruct d; reflexivity).
        replace (side_hi d (seg_box (rp a) (rp b))) with (B2R hi) by (rewrite Ehi; destruct d; reflexivity).
        apply Rnot_le_lt. intros Hc. apply Hin. apply (right_visited k Hk' a b Ha Hb nd l hi); auto.
        apply nle_trans with (side_lo d K); auto. rewrite nleb_B by auto. now apply Rle_bool_true.
      - intros nd. apply edge_children_good.
      - exists vis.
        assert (IN : forall j, In j (vis ++ prn) <-> (0 <= j < zlen bbc)%Z).
        { intros j. unfold zlen. rewrite <- iota_in. split; apply Permutation_in; auto. now apply Permutation_sym. }
        split; [split; [|split]|split; auto].
        + assert (N : NoDup (vis ++ prn)) by (eapply Permutation_NoDup; [exact Hp|apply iota_nodup]).
          clear - N. induction vis as [|x t IH]; [constructor|]. inversion N; subst. constructor; auto.
          intros Hx. apply H1. apply in_or_app; auto.
        + intros j Hj. apply IN, in_or_app. auto.
        + intros j Hj (K & x & EK & Hne & Hx & Kx & Dx). cbn [fst snd] in *.
          apply IN in Hj as Hj'. apply in_app_or in Hj' as [?|Hj']; auto. exfalso.
          destruct HP as [->|HP].
          * destruct (Hnone eq_refl) as [E|Hn]; [contradiction|]. exact (Hn x Hx Dx).
          * rewrite Forall_forall in HP. specialize (HP j Hj' K (aget_pos _ _ _ (proj1 Hj) EK)).
            apply seg_in_box in Hx. destruct HP as (d & HP). destruct Hx as ((X1 & X2) & X3 & X4), Kx as ((Y1 & Y2) & Y3 & Y4).
            destruct d; cbn [side_hi side_lo] in HP; lra.
        + apply Permutation_length in Hp. rewrite app_length, iota_length in Hp. lia. }
    eexists. split; [exact Hrun|].
    assert (HN : Forall (@NoDup Z) jss).
    { clear - HF. induction HF as [|? ? ? ? (H & _)]; constructor; auto. }
    destruct (qrows_nodup hh edges jss HN) as (H1 & H2). split; [exact H1|]. split; [exact H2|].
    assert (HL : length jss = length edges) by (symmetry; eapply F2_length; exact HF).
    split; [|split].
    - intros i j c Hin. apply qrows_in in Hin; auto. destruct Hin as (ab & js & Hi & E1 & E2 & Hj & Ec). exists ab.
      destruct (Forall2_nth _ _ _ _ _ _ HF E1 E2) as (_ & Hs & _). auto.
    - intros i j ab K c x Hi Hj E1 EK Ec Hne Hx Kx Dx. apply qrows_in; auto.
      destruct (Forall2_nth_l _ _ _ _ _ HF E1) as (js & E2 & _ & _ & Hs). exists ab, js. do 3 (split; auto). split; auto.
      apply Hs; [eapply nth_error_range; eauto|]. exists K, x. auto.
    - intros g csfuel buffer Hcs Hb. destruct (Hbuf g csfuel buffer 0%Z Hcs Hb) as (unused & E). exists unused.
      replace (map (Z.add 0) (iota (length edges))) with (iota (length edges)) in E
        by (rewrite <- (map_id (iota (length edges))) at 1; apply map_ext; intros; lia).
      exact E.
  Qed.
End FTree.
