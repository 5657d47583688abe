(** Wachspress weights in binary64: the distance test and the interpolation on a side. *)
From Coq Require Import Reals Lra Psatz.
From Flocq Require Import IEEE754.BinarySingleNaN Core.
From Verif Require Import RBase NumB64 NumRoom FBase FBuild MUtils MGeometry MAlgorithms FPoint FCut FLocate FWeights
  SpecTree SpecPoly SpecGeom PPartition GTriangle GWach FWach.
Open Scope R_scope.

Section Side.
  Context (k : Z) (Hk : (-150 <= k <= 250)%Z).

  (** the square of the length of a difference *)
  Lemma dot_err u v : bpt k u -> bpt k v ->
    let L := dot_product (to_vector u v) (to_vector u v) in
    bounded (2 * k + 3) L /\ 0 <= B2R L /\ Rabs (B2R L - dist2 (rp v) (rp u)) <= 4.1 * uro * dist2 (rp v) (rp u) + 3 * eta.
  Proof.
    intros (Hux & Huy) (Hvx & Hvy) L. pose proof uro_small. pose proof uro_pos. pose proof eta_pos.
    unfold L, dot_product, to_vector. cbn [px py]. unfold dist2, rp. cbn [px py].
    set (dx := B2R (px v) - B2R (px u)). set (dy := B2R (py v) - B2R (py u)).
    destruct (diff_err k Hk (px v) (px u) Hvx Hux) as (B1 & e1 & He1 & E1); fold dx in E1.
    destruct (diff_err k Hk (py v) (py u) Hvy Huy) as (B2 & e2 & He2 & E2); fold dy in E2.
    destruct (prod_err k Hk _ _ _ _ _ _ B1 B1 He1 He1 E1 E1) as (B3 & E3).
    destruct (prod_err k Hk _ _ _ _ _ _ B2 B2 He2 He2 E2 E2) as (B4 & E4).
    assert (SQ : forall x : b64, bounded (k + 1) x -> 0 <= B2R (nmul x x)).
    { intros x (Fx & Bx). destruct (mult_val (2 * k + 2) x x) as (E & _); auto; [lia| |].
      - replace (2 * k + 2)%Z with ((k + 1) + (k + 1))%Z by lia. rewrite bpow_plus. now apply mul_abs.
      - rewrite E. pose proof (rnd_mono 0 (B2R x * B2R x) (Rle_0_sqr _)) as Hm. rewrite rnd_0 in Hm. exact Hm. }
    pose proof (SQ _ B1) as S1. pose proof (SQ _ B2) as S2.
    set (P := nmul (nsub (px v) (px u)) (nsub (px v) (px u))) in *.
    set (Q := nmul (nsub (py v) (py u)) (nsub (py v) (py u))) in *.
    destruct B3 as (F3 & B3), B4 as (F4 & B4).
    assert (HB : Rabs (B2R P + B2R Q) <= bpow radix2 (2 * k + 3)).
    { replace (2 * k + 3)%Z with (2 * k + 2 + 1)%Z by lia. rewrite bpow_plus. change (bpow radix2 1) with 2.
      apply Rabs_le_iff in B3, B4. apply Rabs_le_iff. lra. }
    destruct (plus_err (2 * k + 3) P Q) as (B5 & e5 & He5 & E5); auto; [lia|]. split; auto.
    rewrite E5. pose proof (Rle_0_sqr dx) as Sx. pose proof (Rle_0_sqr dy) as Sy. unfold Rsqr in Sx, Sy.
    rewrite (Rabs_pos_eq (dx * dx)) in E3 by auto. rewrite (Rabs_pos_eq (dy * dy)) in E4 by auto.
    set (q := dx * dx + dy * dy) in *.
    assert (HPQ : Rabs (B2R P + B2R Q - q) <= 3.01 * (uro * q) + 2 * eta).
    { unfold q. apply Rabs_le_iff in E3, E4. apply Rabs_le_iff. lra. }
    assert (Pq : 0 <= q) by (unfold q; lra).
    assert (Hq1 : uro * q <= / 1000000 * q) by (apply Rmult_le_compat_r; lra).
    assert (Hr : Rabs ((B2R P + B2R Q) * e5) <= (1.00001 * q + 2 * eta) * uro).
    { apply mul_abs; auto. apply Rabs_le_iff in HPQ. apply Rabs_le_iff. lra. }
    assert (eta * uro <= eta * / 1000000) by (apply Rmult_le_compat_l; lra).
    split.
    - apply Rmult_le_pos; [lra|]. apply Rabs_le_iff in He5. lra.
    - assert (0 <= uro * q) by (apply Rmult_le_pos; lra).
      apply Rabs_le_iff in HPQ, Hr. apply Rabs_le_iff. lra.
  Qed.

  (** a test that fails says that the area is not much too small *)
  Lemma wpd_low (A tol : b64) u v : bpt k u -> bpt k v -> bounded (2 * k + 3) A -> bounded k tol -> 0 <= B2R tol ->
    let q := dist2 (rp v) (rp u) in let t := B2R tol in
    bpow radix2 (-490) <= q -> bpow radix2 (-900) <= t * t * q ->
    within_perpendicular_distance A (to_vector u v) tol = false -> 0.98 * (t * t * q) <= B2R A * B2R A.
  Proof.
    intros Bu Bv (FA & BA) (Ft & Bt) Pt q t Hq Htq H. pose proof uro_small. pose proof uro_pos. pose proof eta_pos as Pe.
    destruct (dot_err u v Bu Bv) as ((FL & BL) & PL & EL). cbv zeta in *. fold q in EL.
    unfold within_perpendicular_distance in H.
    change (length_squared (to_vector u v)) with (dot_product (to_vector u v) (to_vector u v)) in H.
    set (L := dot_product (to_vector u v) (to_vector u v)) in *.
    assert (Pq : 0 < q) by (pose proof (bpow_gt_0 radix2 (-490)); lra).
    assert (Eq : 100000 * eta <= q).
    { apply Rle_trans with (bpow radix2 (-490)); auto. apply Rle_trans with (bpow radix2 20 * eta); [change (bpow radix2 20) with 1048576; lra|].
      unfold eta. rewrite <- bpow_plus. apply bpow_le. lia. }
    assert (Etq : 100000 * eta <= t * t * q).
    { apply Rle_trans with (bpow radix2 (-900)); auto. apply Rle_trans with (bpow radix2 20 * eta); [change (bpow radix2 20) with 1048576; lra|].
      unfold eta. rewrite <- bpow_plus. apply bpow_le. lia. }
    assert (HL : 0.9999 * q <= B2R L).
    { assert (uro * q <= / 1000000 * q) by (apply Rmult_le_compat_r; lra). apply Rabs_le_iff in EL. lra. }
    assert (HB6 : Rabs (B2R tol * B2R L) <= bpow radix2 (k + (2 * k + 3))).
    { rewrite Rabs_mult, bpow_plus. apply Rmult_le_compat; auto using Rabs_pos. }
    destruct (mult_err (k + (2 * k + 3)) tol L) as ((F6 & B6) & e6 & h6 & He6 & Hh6 & E6); auto; [lia|].
    set (R1 := nmul tol L) in *. fold t in E6, Pt.
    assert (HB7 : Rabs (B2R R1 * B2R tol) <= bpow radix2 (k + (2 * k + 3) + k)).
    { rewrite Rabs_mult, bpow_plus. apply Rmult_le_compat; auto using Rabs_pos. }
    destruct (mult_err (k + (2 * k + 3) + k) R1 tol) as ((F7 & B7) & e7 & h7 & He7 & Hh7 & E7); auto; [lia|].
    set (R2 := nmul R1 tol) in *. fold t in E7.
    assert (HBA : Rabs (B2R A * B2R A) <= bpow radix2 ((2 * k + 3) + (2 * k + 3))).
    { rewrite Rabs_mult, bpow_plus. apply Rmult_le_compat; auto using Rabs_pos. }
    destruct (mult_err ((2 * k + 3) + (2 * k + 3)) A A) as ((F8 & B8) & e8 & h8 & He8 & Hh8 & E8); auto; [lia|].
    rewrite nltb_B in H by auto. rb. rewrite E8, E7, E6 in H.
    apply Rabs_le_iff in He8, Hh8, Hh7, He7, He6, Hh6.
    set (a := B2R A * B2R A) in *. assert (Ha : 0 <= a) by (unfold a; apply Rle_0_sqr).
    assert (G1 : a * (1 + e8) <= a * 1.001) by (apply Rmult_le_compat_l; lra).
    assert (G2 : t * (0.9999 * q) <= t * B2R L) by (apply Rmult_le_compat_l; lra).
    assert (G3 : t * (0.9999 * q) * 0.999 <= t * B2R L * (1 + e6)).
    { apply Rmult_le_compat; try lra. apply Rmult_le_pos; lra. }
    assert (G4 : (t * (0.9999 * q) * 0.999 - eta) * t <= (t * B2R L * (1 + e6) + h6) * t) by (apply Rmult_le_compat_r; lra).
    assert (G5 : 1000 * (eta * t) <= t * t * q).
    { destruct (Rle_dec t 1) as [T|T].
      - assert (eta * t <= eta * 1) by (apply Rmult_le_compat_l; lra). lra.
      - assert (t * 1 <= t * t) by (apply Rmult_le_compat_l; lra).
        assert (eta * t <= eta * (t * t)) by (apply Rmult_le_compat_l; lra).
        assert (t * t * (100000 * eta) <= t * t * q) by (apply Rmult_le_compat_l; [apply Rle_0_sqr|lra]). lra. }
    set (mq := t * t * q) in *.
    assert (G8 : 0.995 * mq <= (t * (0.9999 * q) * 0.999 - eta) * t).
    { replace ((t * (0.9999 * q) * 0.999 - eta) * t) with (0.9999 * 0.999 * mq - eta * t) by (unfold mq; lra). lra. }
    assert (G9 : (0.995 * mq) * 0.999 <= (t * B2R L * (1 + e6) + h6) * t * (1 + e7)).
    { apply Rmult_le_compat; try lra. }
    lra.
  Qed.

  (** a test that succeeds says that it is not much too large *)
  Lemma wpd_high (A tol : b64) u v : bpt k u -> bpt k v -> bounded (2 * k + 3) A -> bounded k tol -> 0 <= B2R tol ->
    let q := dist2 (rp v) (rp u) in let t := B2R tol in
    bpow radix2 (-490) <= q -> bpow radix2 (-900) <= t * t * q ->
    within_perpendicular_distance A (to_vector u v) tol = true -> B2R A * B2R A <= 1.003 * (t * t * q).
  Proof.
    intros Bu Bv BA Bt Pt q t Hq Htq H. pose proof (wpd_bound k Hk A tol u v Bu Bv BA Bt Pt H) as Hb. cbv zeta in Hb.
    change ((B2R (px v) - B2R (px u)) * (B2R (px v) - B2R (px u)) + (B2R (py v) - B2R (py u)) * (B2R (py v) - B2R (py u))) with q in Hb.
    fold t in Hb. pose proof eta_pos as Pe.
    assert (Pq : 0 < q) by (pose proof (bpow_gt_0 radix2 (-490)); lra).
    assert (Eq : 100000 * eta <= q).
    { apply Rle_trans with (bpow radix2 (-490)); auto. apply Rle_trans with (bpow radix2 20 * eta); [change (bpow radix2 20) with 1048576; lra|].
      unfold eta. rewrite <- bpow_plus. apply bpow_le. lia. }
    assert (Etq : 100000 * eta <= t * t * q).
    { apply Rle_trans with (bpow radix2 (-900)); auto. apply Rle_trans with (bpow radix2 20 * eta); [change (bpow radix2 20) with 1048576; lra|].
      unfold eta. rewrite <- bpow_plus. apply bpow_le. lia. }
    assert (G1 : t * t * (100000 * eta) <= t * t * q) by (apply Rmult_le_compat_l; [apply Rle_0_sqr|lra]).
    assert (G5 : 10000 * (t * eta) <= t * t * q).
    { fold t in Pt. destruct (Rle_dec t 1) as [T|T].
      - assert (t * eta <= 1 * eta) by (apply Rmult_le_compat_r; lra). lra.
      - assert (t * 1 <= t * t) by (apply Rmult_le_compat_l; lra).
        assert (t * eta <= t * t * eta) by (apply Rmult_le_compat_r; lra). lra. }
    lra.
  Qed.

  (** square roots *)
  Lemma sqrt_diff a b d : 0 <= a -> 0 < b -> Rabs (a - b) <= d * b -> Rabs (sqrt a - sqrt b) <= d * sqrt b.
  Proof.
    intros Pa Pb H. pose proof (sqrt_lt_R0 b Pb) as Ps. pose proof (sqrt_pos a) as Pr.
    replace (sqrt a - sqrt b) with ((a - b) / (sqrt a + sqrt b)).
    - unfold Rdiv. rewrite Rabs_mult, (Rabs_pos_eq (/ _)) by (apply Rlt_le, Rinv_0_lt_compat; lra).
      apply Rmult_le_reg_r with (sqrt a + sqrt b); [lra|]. rewrite Rmult_assoc, Rinv_l, Rmult_1_r by lra.
      eapply Rle_trans; [exact H|]. rewrite <- (sqrt_def b) at 1 by lra.
      assert (0 <= d) by (pose proof (Rabs_pos (a - b)); apply Rmult_le_reg_r with b; lra).
      rewrite Rmult_assoc. apply Rmult_le_compat_l; auto. apply Rmult_le_compat_l; lra.
    - pose proof (sqrt_def a Pa) as Ea. pose proof (sqrt_def b ltac:(lra)) as Eb.
      replace (a - b) with (sqrt a * sqrt a - sqrt b * sqrt b) by lra. field. lra.
  Qed.

  Lemma sqrt_err u v : bpt k u -> bpt k v ->
    let s := nsqrt (dot_product (to_vector u v) (to_vector u v)) in let q := dist2 (rp v) (rp u) in
    bounded (k + 2) s
    /\ (bpow radix2 (-900) <= q -> Rabs (B2R s - sqrt q) <= 5.3 * uro * sqrt q)
    /\ Rabs (B2R s - sqrt q) <= 5.3 * uro * sqrt q + bpow radix2 (-440).
  Proof.
    intros Bu Bv s q. destruct (dot_err u v Bu Bv) as (BL & PL & EL). cbv zeta in *. fold q in EL.
    set (L := dot_product (to_vector u v) (to_vector u v)) in *.
    assert (Bs : bounded (k + 2) s).
    { apply sqrt_bounded; auto; [lia|]. eapply bounded_mono; [|exact BL]. lia. }
    destruct (Bsqrt_correct prec emax prec_gt prec_lt mode_NE L) as (E & _).
    change (B2R s = rnd (sqrt (B2R L))) in E. destruct (rnd_any (sqrt (B2R L))) as (e & h & He & Hh & ER). rewrite ER in E.
    pose proof uro_small. pose proof uro_pos. pose proof eta_pos as Pe.
    assert (Pq : 0 <= q) by (unfold q, dist2; apply Rplus_le_le_0_compat; apply Rle_0_sqr).
    assert (G : bpow radix2 (-900) <= q -> Rabs (B2R s - sqrt q) <= 5.3 * uro * sqrt q).
    { intros Hq. pose proof (bpow_gt_0 radix2 (-900)).
      assert (Eq : 100 * eta <= uro * q).
      { apply Rle_trans with (uro * bpow radix2 (-900)); [|apply Rmult_le_compat_l; lra].
        apply Rle_trans with (bpow radix2 20 * eta); [change (bpow radix2 20) with 1048576; lra|].
        unfold eta, uro. rewrite <- !bpow_plus. apply bpow_le. lia. }
      assert (HS : Rabs (sqrt (B2R L) - sqrt q) <= 4.2 * uro * sqrt q) by (apply sqrt_diff; auto; lra).
      assert (Ls : bpow radix2 (-450) <= sqrt q).
      { rewrite <- (sqrt_square (bpow radix2 (-450))) by apply bpow_ge_0. apply sqrt_le_1_alt. rewrite <- bpow_plus. exact Hq. }
      assert (Es : 100 * eta <= uro * sqrt q).
      { apply Rle_trans with (uro * bpow radix2 (-450)); [|apply Rmult_le_compat_l; lra].
        apply Rle_trans with (bpow radix2 20 * eta); [change (bpow radix2 20) with 1048576; lra|].
        unfold eta, uro. rewrite <- !bpow_plus. apply bpow_le. lia. }
      rewrite E. set (r := sqrt (B2R L)) in *. pose proof (sqrt_pos q).
      assert (Hr : Rabs r <= 1.01 * sqrt q).
      { assert (4.2 * uro * sqrt q <= 0.01 * sqrt q) by (apply Rmult_le_compat_r; lra). apply Rabs_le_iff in HS. apply Rabs_le_iff. lra. }
      assert (Hre : Rabs (r * e) <= 1.01 * sqrt q * uro) by now apply mul_abs.
      apply Rabs_le_iff in HS, Hre, Hh. apply Rabs_le_iff. lra. }
    split; auto. split; auto. destruct (Rle_dec (bpow radix2 (-900)) q) as [Hq|Hq].
    - specialize (G Hq). pose proof (bpow_gt_0 radix2 (-440)). lra.
    - assert (HL : B2R L <= bpow radix2 (-898)).
      { assert (uro * q <= / 1000000 * q) by (apply Rmult_le_compat_r; lra).
        assert (3 * eta <= bpow radix2 (-900)) by (apply Rle_trans with (bpow radix2 2 * eta); [change (bpow radix2 2) with 4; lra|]; unfold eta; rewrite <- bpow_plus; apply bpow_le; lia).
        replace (-898)%Z with (2 + -900)%Z by lia. rewrite bpow_plus. change (bpow radix2 2) with 4. apply Rabs_le_iff in EL. lra. }
      assert (HR : sqrt (B2R L) <= bpow radix2 (-449)).
      { rewrite <- (sqrt_square (bpow radix2 (-449))) by apply bpow_ge_0. apply sqrt_le_1_alt. rewrite <- bpow_plus. exact HL. }
      assert (HQ : sqrt q <= bpow radix2 (-450)).
      { rewrite <- (sqrt_square (bpow radix2 (-450))) by apply bpow_ge_0. apply sqrt_le_1_alt. rewrite <- bpow_plus. replace (-450 + -450)%Z with (-900)%Z by lia. lra. }
      pose proof (sqrt_pos q) as P1. pose proof (sqrt_pos (B2R L)) as P2. set (r := sqrt (B2R L)) in *.
      assert (X1 : bpow radix2 (-450) <= / 8 * bpow radix2 (-440)).
      { change (/ 8) with (bpow radix2 (-3)). rewrite <- bpow_plus. apply bpow_le. lia. }
      assert (X2 : bpow radix2 (-449) <= / 8 * bpow radix2 (-440)).
      { change (/ 8) with (bpow radix2 (-3)). rewrite <- bpow_plus. apply bpow_le. lia. }
      assert (X3 : eta <= / 8 * bpow radix2 (-440)).
      { change (/ 8) with (bpow radix2 (-3)). unfold eta. rewrite <- bpow_plus. apply bpow_le. lia. }
      assert (Hre : Rabs (r * e) <= r * 1) by (apply mul_abs; [rewrite Rabs_pos_eq; lra|lra]).
      assert (0 <= 5.3 * uro * sqrt q) by (apply Rmult_le_pos; lra).
      rewrite E. apply Rabs_le_iff in Hre, Hh. apply Rabs_le_iff. lra.
  Qed.

  (** the weight on a side *)
  Lemma side_weight u v p : bpt k u -> bpt k v -> bpt k p -> bpow radix2 (-490) <= dist2 (rp v) (rp u) ->
    let w0 := sqrt (dist2 (rp p) (rp u)) / sqrt (dist2 (rp v) (rp u)) in
    exists w : b64, ndiv (nsqrt (dot_product (to_vector u p) (to_vector u p))) (nsqrt (dot_product (to_vector u v) (to_vector u v))) = Ok w
      /\ is_finite w = true /\ Rabs (B2R w - w0) <= 12 * uro * (1 + w0)
      /\ is_finite (nsub (nofZ 1) w) = true /\ Rabs (B2R (nsub (nofZ 1) w) - (1 - w0)) <= 14 * uro * (1 + w0).
  Proof.
    intros Bu Bv Bp Hq w0. destruct (sqrt_err u p Bu Bp) as (BV & _ & EV). destruct (sqrt_err u v Bu Bv) as (BU & EU & _). cbv zeta in *.
    specialize (EU ltac:(eapply Rle_trans; [|exact Hq]; apply bpow_le; lia)).
    set (sv := nsqrt (dot_product (to_vector u p) (to_vector u p))) in *. set (su := nsqrt (dot_product (to_vector u v) (to_vector u v))) in *.
    assert (LU : bpow radix2 (-245) <= sqrt (dist2 (rp v) (rp u))).
    { rewrite <- (sqrt_square (bpow radix2 (-245))) by apply bpow_ge_0. apply sqrt_le_1_alt. rewrite <- bpow_plus. exact Hq. }
    set (ru := sqrt (dist2 (rp v) (rp u))) in *. pose proof (sqrt_pos (dist2 (rp p) (rp u))) as PV. set (rv := sqrt (dist2 (rp p) (rp u))) in *.
    pose proof uro_small as Hu. pose proof uro_pos as Pu. pose proof (bpow_gt_0 radix2 (-245)) as P245.
    assert (Lsu : 0.999 * ru <= B2R su).
    { assert (5.3 * uro * ru <= 0.001 * ru) by (apply Rmult_le_compat_r; lra). apply Rabs_le_iff in EU. lra. }
    assert (Pw0 : 0 <= w0) by (unfold w0; apply Rmult_le_pos; [auto|apply Rlt_le, Rinv_0_lt_compat; lra]).
    assert (NS : B2R su <> 0) by lra.
    assert (BQ : Rabs (B2R sv / B2R su) <= bpow radix2 500).
    { unfold Rdiv. rewrite Rabs_mult, (Rabs_pos_eq (/ _)) by (apply Rlt_le, Rinv_0_lt_compat; lra).
      apply Rle_trans with (bpow radix2 (k + 2) * bpow radix2 246).
      - apply Rmult_le_compat; [apply Rabs_pos|apply Rlt_le, Rinv_0_lt_compat; lra|apply BV|].
        replace (bpow radix2 246) with (/ bpow radix2 (-246)) by (rewrite <- bpow_opp; reflexivity).
        apply Rinv_le; [apply bpow_gt_0|]. replace (-246)%Z with (-1 + -245)%Z by lia. rewrite bpow_plus. change (bpow radix2 (-1)) with (/ 2). lra.
      - rewrite <- bpow_plus. apply bpow_le. lia. }
    destruct (div_err 500 sv su) as (DV & (FW & BW) & e & h & He & Hh & EW); auto; [lia|apply BV|apply BU|].
    exists (ndivraw sv su). split; auto. split; auto.
    (* the quotient *)
    assert (Ev : rv = w0 * ru) by (unfold w0; field; lra).
    assert (HQ : Rabs (B2R sv / B2R su - w0) <= 10.7 * uro * w0 + uro / 100).
    { replace (B2R sv / B2R su - w0) with (((B2R sv - rv) - w0 * (B2R su - ru)) / B2R su) by (rewrite Ev; field; lra).
      unfold Rdiv. rewrite Rabs_mult, (Rabs_pos_eq (/ _)) by (apply Rlt_le, Rinv_0_lt_compat; lra).
      apply Rmult_le_reg_r with (B2R su); [lra|]. rewrite Rmult_assoc, Rinv_l, Rmult_1_r by lra.
      assert (A2 : Rabs (w0 * (B2R su - ru)) <= w0 * (5.3 * uro * ru)) by (apply mul_abs; auto; rewrite Rabs_pos_eq; lra).
      assert (X1 : bpow radix2 (-440) <= uro / 100 * (0.999 * ru)).
      { apply Rle_trans with (uro / 100 * (0.999 * bpow radix2 (-245))).
        - apply Rle_trans with (bpow radix2 (-10) * (uro * bpow radix2 (-245))).
          + unfold uro. rewrite <- !bpow_plus. apply bpow_le. lia.
          + change (bpow radix2 (-10)) with (/ 1024). assert (0 < uro * bpow radix2 (-245)) by now apply Rmult_lt_0_compat. lra.
        - apply Rmult_le_compat_l; lra. }
      assert (X2 : uro / 100 * (0.999 * ru) <= uro / 100 * B2R su) by (apply Rmult_le_compat_l; lra).
      assert (X3 : 10.7 * uro * w0 * (0.999 * ru) <= 10.7 * uro * w0 * B2R su) by (apply Rmult_le_compat_l; [apply Rmult_le_pos; lra|auto]).
      rewrite Ev in EV at 2. assert (0 <= uro * w0 * ru) by (apply Rmult_le_pos; [apply Rmult_le_pos; lra|lra]).
      apply Rabs_le_iff in EV, A2. apply Rabs_le_iff. lra. }
    assert (Puw : 0 <= uro * w0) by (apply Rmult_le_pos; lra).
    assert (Hquo : Rabs (B2R sv / B2R su) <= 1.001 * w0 + 0.001).
    { assert (uro * w0 <= / 1000000 * w0) by (apply Rmult_le_compat_r; lra). apply Rabs_le_iff in HQ. apply Rabs_le_iff. lra. }
    assert (Hqe : Rabs (B2R sv / B2R su * e) <= (1.001 * w0 + 0.001) * uro) by now apply mul_abs.
    assert (Eu : eta <= uro / 100).
    { apply Rle_trans with (bpow radix2 (-10) * uro); [unfold eta, uro; rewrite <- bpow_plus; apply bpow_le; lia|]. change (bpow radix2 (-10)) with (/ 1024). lra. }
    assert (HW : Rabs (B2R (ndivraw sv su) - w0) <= 12 * uro * (1 + w0)).
    { rewrite EW. apply Rabs_le_iff in HQ, Hqe, Hh. apply Rabs_le_iff. lra. }
    split; auto.
    destruct (Zb_exact 1 ltac:(lia)) as (F1 & E1).
    set (w := ndivraw sv su) in *.
    destruct (minus_err 501 (nofZ 1) w) as ((F2 & _) & e2 & He2 & E2); auto; [lia| |].
    { change (nofZ 1 : b64) with (Zb 1). rewrite E1. replace 501%Z with (1 + 500)%Z by lia. rewrite bpow_plus. change (bpow radix2 1) with 2.
      assert (1 <= bpow radix2 500) by (change 1 with (bpow radix2 0); apply bpow_le; lia). apply Rabs_le_iff in BW. apply Rabs_le_iff. lra. }
    split; auto. rewrite E2. change (nofZ 1 : b64) with (Zb 1). rewrite E1.
    assert (H1w : Rabs (1 - B2R w) <= 1.01 * (1 + w0)).
    { assert (12 * uro * (1 + w0) <= 0.01 * (1 + w0)) by (apply Rmult_le_compat_r; lra). apply Rabs_le_iff in HW. apply Rabs_le_iff. lra. }
    assert (H2w : Rabs ((1 - B2R w) * e2) <= 1.01 * (1 + w0) * uro) by now apply mul_abs.
    apply Rabs_le_iff in HW, H2w. apply Rabs_le_iff. lra.
  Qed.
End Side.
