(** The barycentric weights of a triangle in binary64. *)
From Coq Require Import Reals Lra Psatz.
From Flocq Require Import IEEE754.BinarySingleNaN Core.
From Verif Require Import RBase NumB64 NumRoom FBase FBuild MGeometry MAlgorithms FPoint FCut
  SpecTree SpecPoly SpecGeom GTriangle.
Open Scope R_scope.

(** the largest difference of coordinates within a triangle *)
Definition span3 (a b c : pt) : R :=
  Rmax (Rmax (Rmax (Rabs (px b - px a)) (Rabs (px c - px b))) (Rabs (px a - px c)))
       (Rmax (Rmax (Rabs (py b - py a)) (Rabs (py c - py b))) (Rabs (py a - py c))).

Lemma span3_bounds a b c :
  Rabs (px b - px a) <= span3 a b c /\ Rabs (px c - px a) <= span3 a b c /\ Rabs (px c - px b) <= span3 a b c
  /\ Rabs (py b - py a) <= span3 a b c /\ Rabs (py c - py a) <= span3 a b c /\ Rabs (py c - py b) <= span3 a b c.
Proof.
  rewrite (Rabs_minus_sym (px c) (px a)), (Rabs_minus_sym (py c) (py a)).
  unfold span3. set (x1 := Rabs (px b - px a)). set (x2 := Rabs (px c - px b)). set (x3 := Rabs (px a - px c)).
  set (y1 := Rabs (py b - py a)). set (y2 := Rabs (py c - py b)). set (y3 := Rabs (py a - py c)).
  pose proof (Rmax_l (Rmax (Rmax x1 x2) x3) (Rmax (Rmax y1 y2) y3)). pose proof (Rmax_r (Rmax (Rmax x1 x2) x3) (Rmax (Rmax y1 y2) y3)).
  pose proof (Rmax_l (Rmax x1 x2) x3). pose proof (Rmax_r (Rmax x1 x2) x3). pose proof (Rmax_l x1 x2). pose proof (Rmax_r x1 x2).
  pose proof (Rmax_l (Rmax y1 y2) y3). pose proof (Rmax_r (Rmax y1 y2) y3). pose proof (Rmax_l y1 y2). pose proof (Rmax_r y1 y2).
  repeat split; lra.
Qed.
Lemma span3_rev a b c : span3 c b a = span3 a b c.
Proof.
  unfold span3. rewrite (Rabs_minus_sym (px b) (px c)), (Rabs_minus_sym (px a) (px b)), (Rabs_minus_sym (px c) (px a)).
  rewrite (Rabs_minus_sym (py b) (py c)), (Rabs_minus_sym (py a) (py b)), (Rabs_minus_sym (py c) (py a)).
  f_equal; f_equal; apply Rmax_comm.
Qed.

(** at least 1000 roundings away from degenerate *)
Definition clear_triangle (a b c : pt) : Prop :=
  bpow radix2 (-250) <= span3 a b c /\ 1000 * (uro * (span3 a b c * span3 a b c)) <= Rabs (orient a b c).

Lemma clear_triangle_rev a b c : clear_triangle a b c -> clear_triangle c b a.
Proof.
  unfold clear_triangle. rewrite span3_rev. replace (orient c b a) with (- orient a b c) by (unfold orient; ring). now rewrite Rabs_Ropp.
Qed.

(** u, v, w are the barycentric coordinates of p *)
Definition coordinates (a b c p : pt) (u v w : R) : Prop :=
  u + v + w = 1 /\ px p = u * px a + v * px b + w * px c /\ py p = u * py a + v * py b + w * py c.

Section Weights.
  Context (k : Z) (Hk : (-150 <= k <= 250)%Z).

  Lemma quot_err (x y x0 y0 : R) S : 0 < S -> 1000 * S <= y0 -> 0 <= x0 <= 1.5 * y0 -> Rabs (x - x0) <= 14.5 * S -> Rabs (y - y0) <= 8.3 * S ->
    0.99 * y0 <= y /\ Rabs (x / y - x0 / y0) <= 27.3 * (S / y0).
  Proof.
    intros PS H1 H2 Hx Hy. apply Rabs_le_iff in Hx, Hy.
    assert (Py : 0.99 * y0 <= y) by lra. split; [lra|].
    replace (x / y - x0 / y0) with (((x - x0) * y0 - x0 * (y - y0)) / y0 / y) by (field; lra).
    replace (27.3 * (S / y0)) with (27.3 * S / y0) by (field; lra).
    assert (HN : Rabs (((x - x0) * y0 - x0 * (y - y0)) / y0) <= 26.95 * S).
    { replace (((x - x0) * y0 - x0 * (y - y0)) / y0) with ((x - x0) - (x0 / y0) * (y - y0)) by (field; lra).
      assert (Hq : 0 <= x0 / y0 <= 1.5) by (split; [apply Rmult_le_pos; [lra|apply Rlt_le, Rinv_0_lt_compat; lra]|apply Rmult_le_reg_r with y0; [lra|]; unfold Rdiv; rewrite Rmult_assoc, Rinv_l; lra]).
      assert (H0 : Rabs (x0 / y0 * (y - y0)) <= 1.5 * (8.3 * S)) by (apply mul_abs; apply Rabs_le_iff; lra).
      apply Rabs_le_iff in H0. apply Rabs_le_iff. lra. }
    unfold Rdiv at 1. rewrite Rabs_mult, (Rabs_right (/ y)) by (apply Rle_ge, Rlt_le, Rinv_0_lt_compat; lra).
    apply Rle_trans with (26.95 * S * / y).
    - apply Rmult_le_compat_r; [apply Rlt_le, Rinv_0_lt_compat; lra|exact HN].
    - unfold Rdiv. apply Rmult_le_reg_r with (y * y0); [apply Rmult_lt_0_compat; lra|].
      replace (26.95 * S * / y * (y * y0)) with (26.95 * S * y0) by (field; lra).
      replace (27.3 * S * / y0 * (y * y0)) with (27.3 * S * y) by (field; lra). nra.
  Qed.

  (** one cross product: differences at most W and r * W *)
  Lemma cross_W p u v W r : bpt k p -> bpt k u -> bpt k v -> bpow radix2 (-250) <= W -> 1 <= r <= 1.75 ->
    Rabs (B2R (px u) - B2R (px p)) <= W -> Rabs (B2R (py u) - B2R (py p)) <= W ->
    Rabs (B2R (px v) - B2R (px p)) <= r * W -> Rabs (B2R (py v) - B2R (py p)) <= r * W ->
    bounded (2 * k + 3) (nabs (cross_product (to_vector p u) (to_vector p v)))
    /\ Rabs (B2R (nabs (cross_product (to_vector p u) (to_vector p v))) - Rabs (orient (rp p) (rp u) (rp v))) <= (8.2 * r + 0.1) * (uro * (W * W)).
  Proof.
    intros Hp Hu Hv HW Hr H1 H2 H3 H4. destruct (cross_err k Hk p u v Hp Hu Hv) as ((F & B) & E).
    set (A := cross_product _ _) in *. destruct (nabs_B A) as (EA & FA). split.
    { split; [now rewrite FA|]. rewrite EA, Rabs_Rabsolu. exact B. }
    rewrite EA. eapply Rle_trans; [apply Rabs_triang_inv2|].
    replace (orient (rp p) (rp u) (rp v)) with ((B2R (px u) - B2R (px p)) * (B2R (py v) - B2R (py p)) - (B2R (py u) - B2R (py p)) * (B2R (px v) - B2R (px p)))
      by (unfold orient, rp; cbn [px py]; ring).
    eapply Rle_trans; [exact E|].
    assert (Q1 : Rabs ((B2R (px u) - B2R (px p)) * (B2R (py v) - B2R (py p))) <= W * (r * W)) by now apply mul_abs.
    assert (Q2 : Rabs ((B2R (py u) - B2R (py p)) * (B2R (px v) - B2R (px p))) <= W * (r * W)) by now apply mul_abs.
    assert (HE : 3 * eta <= 0.1 * (uro * (W * W))).
    { apply Rle_trans with (0.1 * (uro * (bpow radix2 (-250) * bpow radix2 (-250)))).
      - unfold eta, uro. rewrite <- !bpow_plus. replace (-1075)%Z with (-10 + -1065)%Z by lia. rewrite (bpow_plus radix2 (-10)).
        assert (bpow radix2 (-1065) <= bpow radix2 (-53 + (-250 + -250))) by (apply bpow_le; lia).
        pose proof (bpow_gt_0 radix2 (-1065)). change (bpow radix2 (-10)) with (/ 1024). lra.
      - apply Rmult_le_compat_l; [lra|]. apply Rmult_le_compat_l; [pose proof uro_pos; lra|].
        pose proof (bpow_gt_0 radix2 (-250)). apply Rmult_le_compat; lra. }
    pose proof uro_pos as Pu.
    assert (QQ : uro * (Rabs ((B2R (px u) - B2R (px p)) * (B2R (py v) - B2R (py p))) + Rabs ((B2R (py u) - B2R (py p)) * (B2R (px v) - B2R (px p)))) <= uro * (2 * (W * (r * W))))
      by (apply Rmult_le_compat_l; lra).
    replace (uro * (2 * (W * (r * W)))) with (2 * r * (uro * (W * W))) in QQ by ring. lra.
  Qed.

  Lemma one_exact : is_finite (nofZ 1 : b64) = true /\ B2R (nofZ 1 : b64) = 1.
  Proof. exact (Zb_exact 1 ltac:(lia)). Qed.

  (** the weight of a part x of the area y, by way of the reciprocal of y *)
  Lemma weight_val (x y : b64) (x0 y0 S : R) : bounded (2 * k + 3) x -> bounded (2 * k + 3) y ->
    bpow radix2 (-560) <= S -> 1000 * S <= y0 -> uro <= 2 * (S / y0) -> 0 <= x0 <= 1.5 * y0 ->
    Rabs (B2R x - x0) <= 14.5 * S -> Rabs (B2R y - y0) <= 8.3 * S ->
    exists inv, ndiv (nofZ 1) y = Ok inv /\ bounded 1 (nmul inv x)
      /\ Rabs (B2R (nmul inv x) - x0 / y0) <= 35 * (S / y0).
  Proof.
    intros Bx By HS Hy0 Hu Hx0 Hx Hy.
    assert (PS : 0 < S) by (pose proof (bpow_gt_0 radix2 (-560)); lra).
    destruct (quot_err (B2R x) (B2R y) x0 y0 S PS Hy0 Hx0 Hx Hy) as (Py & HQ).
    destruct one_exact as (F1 & E1).
    assert (Ly : bpow radix2 (-560) <= B2R y) by lra.
    assert (I1 : Rabs (B2R (nofZ 1 : b64) / B2R y) <= bpow radix2 560).
    { rewrite E1. unfold Rdiv. rewrite Rmult_1_l, Rabs_right by (apply Rle_ge, Rlt_le, Rinv_0_lt_compat; lra).
      replace (bpow radix2 560) with (/ bpow radix2 (-560)) by (rewrite <- bpow_opp; reflexivity).
      apply Rinv_le; [apply bpow_gt_0|exact Ly]. }
    destruct (div_err 560 (nofZ 1) y) as (D & BI & e & h & He & Hh & EI); [lia|exact F1|apply By|lra|exact I1|].
    set (inv := ndivraw (nofZ 1) y) in *. exists inv. split; auto. rewrite E1 in EI.
    set (qq := B2R x / B2R y) in *. set (q0 := x0 / y0) in *.
    assert (Hq : Rabs qq <= 1.53).
    { assert (S / y0 <= / 1000) by (apply Rmult_le_reg_r with y0; [lra|]; unfold Rdiv; rewrite Rmult_assoc, Rinv_l by lra; lra).
      assert (0 <= q0 <= 1.5).
      { unfold q0. split; [apply Rmult_le_pos; [lra|apply Rlt_le, Rinv_0_lt_compat; lra]|].
        apply Rmult_le_reg_r with y0; [lra|]. unfold Rdiv. rewrite Rmult_assoc, Rinv_l; lra. }
      apply Rabs_le_iff in HQ. apply Rabs_le_iff. lra. }
    (* the underflow term of the reciprocal *)
    assert (Hhx : Rabs (h * B2R x) <= uro / 1000).
    { apply Rle_trans with (eta * bpow radix2 (2 * k + 3)); [apply mul_abs; [exact Hh|apply Bx]|].
      unfold eta, uro. rewrite <- bpow_plus. apply Rle_trans with (bpow radix2 (-53 + -10)); [apply bpow_le; lia|].
      rewrite bpow_plus. change (bpow radix2 (-10)) with (/ 1024). pose proof (bpow_gt_0 radix2 (-53)). lra. }
    assert (EP : B2R inv * B2R x = qq * (1 + e) + h * B2R x) by (rewrite EI; unfold qq; field; lra).
    pose proof uro_small. pose proof uro_pos.
    assert (Hqe : Rabs (qq * e) <= 1.53 * uro) by now apply mul_abs.
    assert (HP : Rabs (B2R inv * B2R x - qq) <= 1.54 * uro).
    { rewrite EP. apply Rabs_le_iff in Hqe, Hhx. apply Rabs_le_iff. lra. }
    assert (HP2 : Rabs (B2R inv * B2R x) <= 1.54).
    { apply Rabs_le_iff in HP, Hq. apply Rabs_le_iff. lra. }
    destruct (mult_err 1 inv x) as (BW & e2 & h2 & He2 & Hh2 & EW); [lia|apply BI|apply Bx|change (bpow radix2 1) with 2; lra|].
    split; auto. rewrite EW.
    assert (Hpe : Rabs (B2R inv * B2R x * e2) <= 1.54 * uro) by now apply mul_abs.
    assert (Het : eta <= uro / 1000).
    { unfold eta, uro. apply Rle_trans with (bpow radix2 (-53 + -10)); [apply bpow_le; lia|].
      rewrite bpow_plus. change (bpow radix2 (-10)) with (/ 1024). pose proof (bpow_gt_0 radix2 (-53)). lra. }
    apply Rabs_le_iff in Hpe, HP, HQ, Hh2. apply Rabs_le_iff. lra.
  Qed.

  (** the area of a clear triangle is not zero, so the weights exist whatever the point *)
  Lemma clear_scale a b c (W := span3 (rp a) (rp b) (rp c)) (A0 := Rabs (orient (rp a) (rp b) (rp c))) (S := uro * (W * W)) :
    bpt k a -> bpt k b -> bpt k c -> clear_triangle (rp a) (rp b) (rp c) ->
    bpow radix2 (-560) <= S /\ 1000 * S <= A0 /\ uro <= 2 * (S / A0) /\ S / A0 <= / 1000
    /\ bounded (2 * k + 3) (nabs (cross_product (to_vector a b) (to_vector a c)))
    /\ Rabs (B2R (nabs (cross_product (to_vector a b) (to_vector a c))) - A0) <= 8.3 * S.
  Proof.
    intros Ba Bb Bc (HW & HC). fold W in HW, HC. fold S A0 in HC.
    pose proof (span3_bounds (rp a) (rp b) (rp c)) as (S1 & S2 & _ & S3 & S4 & _). fold W in S1, S2, S3, S4.
    pose proof uro_pos as Pu. pose proof (bpow_gt_0 radix2 (-250)) as P250.
    assert (PS : bpow radix2 (-560) <= S).
    { apply Rle_trans with (uro * (bpow radix2 (-250) * bpow radix2 (-250))).
      - unfold uro. rewrite <- !bpow_plus. apply bpow_le. lia.
      - unfold S. apply Rmult_le_compat_l; [lra|]. apply Rmult_le_compat; lra. }
    pose proof (bpow_gt_0 radix2 (-560)) as P560.
    assert (LA : A0 <= 2 * (W * W)).
    { unfold A0, orient. assert (L1 : Rabs ((px (rp b) - px (rp a)) * (py (rp c) - py (rp a))) <= W * W) by now apply mul_abs.
      assert (L2 : Rabs ((py (rp b) - py (rp a)) * (px (rp c) - px (rp a))) <= W * W) by now apply mul_abs.
      apply Rabs_le_iff in L1, L2. apply Rabs_le_iff. lra. }
    destruct (cross_W a b c W 1 Ba Bb Bc HW ltac:(lra) S1 S3 ltac:(rewrite Rmult_1_l; exact S2) ltac:(rewrite Rmult_1_l; exact S4)) as (BD & ED).
    fold A0 in ED. fold S in ED.
    split; auto. split; auto. split.
    { unfold S. apply Rmult_le_reg_r with A0; [lra|]. replace (2 * (uro * (W * W) / A0) * A0) with (2 * (uro * (W * W))) by (field; lra). nra. }
    split; [apply Rmult_le_reg_r with A0; [lra|]; unfold Rdiv; rewrite Rmult_assoc, Rinv_l by lra; lra|].
    split; auto. lra.
  Qed.

  Lemma weights_exist a b c p : bpt k a -> bpt k b -> bpt k c -> clear_triangle (rp a) (rp b) (rp c) ->
    exists u v w, triangle_weights a b c p = Ok (u, v, w).
  Proof.
    intros Ba Bb Bc HC. destruct (clear_scale a b c Ba Bb Bc HC) as (PS & HA & Hu & _ & BD & ED). cbv zeta in *.
    set (S := uro * _) in *. set (A0 := Rabs _) in *. pose proof (bpow_gt_0 radix2 (-560)) as P560.
    assert (Z0 : Rabs (B2R (Zb 0) - 0) <= 14.5 * S).
    { rewrite (proj2 (Zb_exact 0 ltac:(lia))). rewrite Rminus_0_r, Rabs_R0. lra. }
    assert (BZ : bounded (2 * k + 3) (Zb 0)).
    { split; [reflexivity|]. rewrite (proj2 (Zb_exact 0 ltac:(lia))), Rabs_R0. apply bpow_ge_0. }
    destruct (weight_val (Zb 0) _ 0 A0 S BZ BD PS HA Hu ltac:(lra) Z0 ED) as (inv & EI & _).
    unfold triangle_weights. cbv zeta. rewrite EI. cbn [bind]. eauto.
  Qed.

  (** the whole computation, for a point that is in the triangle, or at most a fraction tau outside *)
  Lemma weights_float a b c p u0 v0 w0 tau : bpt k a -> bpt k b -> bpt k c -> bpt k p ->
    clear_triangle (rp a) (rp b) (rp c) -> coordinates (rp a) (rp b) (rp c) (rp p) u0 v0 w0 ->
    0 <= tau <= / 4 -> - tau <= u0 -> - tau <= v0 -> - tau <= w0 ->
    exists u v w, triangle_weights a b c p = Ok (u, v, w)
      /\ is_finite u = true /\ is_finite v = true /\ is_finite w = true
      /\ (let q := uro * (span3 (rp a) (rp b) (rp c) * span3 (rp a) (rp b) (rp c)) / Rabs (orient (rp a) (rp b) (rp c)) in
          Rabs (B2R u - u0) <= 80 * q + 4 * tau /\ Rabs (B2R v - v0) <= 35 * q + 2 * tau /\ Rabs (B2R w - w0) <= 35 * q + 2 * tau)
      /\ Rabs (B2R u + B2R v + B2R w - 1) <= 3 * uro.
  Proof.
    intros Ba Bb Bc Bp HC (Es & Ex & Ey) Ht P1 P2 P3. pose proof HC as (HW & _).
    destruct (clear_scale a b c Ba Bb Bc HC) as (PS & HA & Hu & HqS & BD & ED). cbv zeta in *.
    set (W := span3 (rp a) (rp b) (rp c)) in *. set (A0 := Rabs (orient (rp a) (rp b) (rp c))) in *.
    pose proof (span3_bounds (rp a) (rp b) (rp c)) as (S1 & S2 & _ & S3 & S4 & _). fold W in S1, S2, S3, S4.
    pose proof uro_pos as Pu. pose proof uro_small as Hus.
    assert (PW : 0 < W) by (pose proof (bpow_gt_0 radix2 (-250)); lra).
    set (S := uro * (W * W)) in *.
    assert (PS0 : 0 < S) by (pose proof (bpow_gt_0 radix2 (-560)); lra).
    set (D := orient (rp a) (rp b) (rp c)) in *.
    assert (E1 : orient (rp a) (rp b) (rp p) = w0 * D).
    { unfold D, orient. rewrite Ex, Ey. replace u0 with (1 - v0 - w0) by lra. ring. }
    assert (E3 : orient (rp a) (rp c) (rp p) = - (v0 * D)).
    { unfold D, orient. rewrite Ex, Ey. replace u0 with (1 - v0 - w0) by lra. ring. }
    assert (AV : Rabs v0 <= 1.5 /\ Rabs (Rabs v0 - v0) <= 2 * tau).
    { unfold Rabs at 1 3. destruct (Rcase_abs v0); split; try lra; apply Rabs_le_iff; lra. }
    assert (AW : Rabs w0 <= 1.5 /\ Rabs (Rabs w0 - w0) <= 2 * tau).
    { unfold Rabs at 1 3. destruct (Rcase_abs w0); split; try lra; apply Rabs_le_iff; lra. }
    assert (AVW : Rabs v0 + Rabs w0 <= 1.75) by (unfold Rabs; destruct (Rcase_abs v0), (Rcase_abs w0); lra).
    destruct AV as (AV & AV'), AW as (AW & AW').
    assert (Dp : forall x y, Rabs x <= W -> Rabs y <= W -> Rabs (v0 * x + w0 * y) <= 1.75 * W).
    { intros x y Hx Hy. eapply Rle_trans; [apply Rabs_triang|]. rewrite !Rabs_mult.
      pose proof (Rabs_pos v0). pose proof (Rabs_pos w0).
      assert (Rabs v0 * Rabs x <= Rabs v0 * W) by now apply Rmult_le_compat_l.
      assert (Rabs w0 * Rabs y <= Rabs w0 * W) by now apply Rmult_le_compat_l. nra. }
    assert (X1 : Rabs (px (rp p) - px (rp a)) <= 1.75 * W).
    { rewrite Ex. replace (u0 * px (rp a) + v0 * px (rp b) + w0 * px (rp c) - px (rp a)) with (v0 * (px (rp b) - px (rp a)) + w0 * (px (rp c) - px (rp a)))
        by (replace u0 with (1 - v0 - w0) by lra; ring). auto. }
    assert (X2 : Rabs (py (rp p) - py (rp a)) <= 1.75 * W).
    { rewrite Ey. replace (u0 * py (rp a) + v0 * py (rp b) + w0 * py (rp c) - py (rp a)) with (v0 * (py (rp b) - py (rp a)) + w0 * (py (rp c) - py (rp a)))
        by (replace u0 with (1 - v0 - w0) by lra; ring). auto. }
    destruct (cross_W a b p W 1.75 Ba Bb Bp HW ltac:(lra) S1 S3 X1 X2) as (BA & EA).
    destruct (cross_W a c p W 1.75 Ba Bc Bp HW ltac:(lra) S2 S4 X1 X2) as (BC & EC). fold S in EA, EC.
    rewrite E1, Rabs_mult in EA. rewrite E3, Rabs_Ropp, Rabs_mult in EC. fold A0 in EA, EC.
    assert (PA : 0 < A0) by lra.
    assert (EA' : Rabs (B2R (nabs (cross_product (to_vector a b) (to_vector a p))) - Rabs w0 * A0) <= 14.5 * S) by lra.
    assert (EC' : Rabs (B2R (nabs (cross_product (to_vector a c) (to_vector a p))) - Rabs v0 * A0) <= 14.5 * S) by lra.
    unfold triangle_weights. cbv zeta.
    destruct (weight_val _ _ (Rabs w0 * A0) A0 S BA BD PS HA Hu ltac:(split; [apply Rmult_le_pos; [apply Rabs_pos|lra]|apply Rmult_le_compat_r; lra]) EA' ED)
      as (inv & EI & Bw & Hw).
    destruct (weight_val _ _ (Rabs v0 * A0) A0 S BC BD PS HA Hu ltac:(split; [apply Rmult_le_pos; [apply Rabs_pos|lra]|apply Rmult_le_compat_r; lra]) EC' ED)
      as (inv' & EI' & Bv & Hv).
    assert (inv' = inv) by congruence. subst inv'. rewrite EI. cbn [bind].
    replace (Rabs w0 * A0 / A0) with (Rabs w0) in Hw by (field; lra). replace (Rabs v0 * A0 / A0) with (Rabs v0) in Hv by (field; lra).
    set (w := nmul inv (nabs (cross_product (to_vector a b) (to_vector a p)))) in *.
    set (v := nmul inv (nabs (cross_product (to_vector a c) (to_vector a p)))) in *.
    set (q := S / A0) in *.
    pose proof (Rabs_pos v0) as Qv. pose proof (Rabs_pos w0) as Qw.
    destruct one_exact as (F1 & EO).
    assert (Q1 : Rabs (B2R (nofZ 1 : b64) - B2R v) <= 1.04).
    { rewrite EO. apply Rabs_le_iff in Hv. apply Rabs_le_iff. lra. }
    destruct (minus_err 1 (nofZ 1) v) as (B4 & e4 & He4 & E4); [lia|exact F1|apply Bv|change (bpow radix2 1) with 2; lra|].
    set (d := nsub (nofZ 1) v) in *. rewrite EO in E4, Q1.
    assert (T4 : Rabs ((1 - B2R v) * e4) <= 1.04 * uro) by now apply mul_abs.
    assert (Q2 : Rabs (B2R d - B2R w) <= 1.08).
    { rewrite E4. apply Rabs_le_iff in Hv, Hw, T4. apply Rabs_le_iff. lra. }
    destruct (minus_err 1 d w) as (B5 & e5 & He5 & E5); [lia|apply B4|apply Bw|change (bpow radix2 1) with 2; lra|].
    assert (T5 : Rabs ((B2R d - B2R w) * e5) <= 1.08 * uro) by now apply mul_abs.
    exists (nsub d w), v, w. split; [reflexivity|].
    split; [apply B5|]. split; [apply Bv|]. split; [apply Bw|].
    fold q. apply Rabs_le_iff in Hv, Hw, T4, T5, AV', AW'. split.
    - rewrite E5. split; [|split]; apply Rabs_le_iff; unfold q in *; lra.
    - rewrite E5. apply Rabs_le_iff. lra.
  Qed.
End Weights.

(** ** Points near a triangle have coordinates that are hardly negative *)
Lemma coordinates_exist a b c p : orient a b c <> 0 ->
  coordinates a b c p (orient b c p / orient a b c) (orient c a p / orient a b c) (orient a b p / orient a b c).
Proof.
  intros H. unfold coordinates. repeat split; unfold orient in *; field; exact H.
Qed.

Lemma coordinates_unique a b c p u v w : orient a b c <> 0 -> coordinates a b c p u v w ->
  u = orient b c p / orient a b c /\ v = orient c a p / orient a b c /\ w = orient a b p / orient a b c.
Proof.
  intros H (Es & Ex & Ey). replace u with (1 - v - w) in * by lra.
  repeat split; apply Rmult_eq_reg_r with (orient a b c); auto; unfold Rdiv; rewrite Rmult_assoc, Rinv_l, Rmult_1_r by auto;
    unfold orient; rewrite Ex, Ey; ring.
Qed.

(** moving a point by r changes the orientation with a side by at most r times three halves of the span *)
Lemma orient_move (u v p q : pt) W r : 0 <= r -> Rabs (px v - px u) <= W -> Rabs (py v - py u) <= W -> dist2 p q <= r * r ->
  Rabs (orient u v p - orient u v q) <= 1.5 * (r * W).
Proof.
  intros Hr H1 H2 Hd. replace (orient u v p - orient u v q) with ((px v - px u) * (py p - py q) - (py v - py u) * (px p - px q)) by (unfold orient; ring).
  assert (HW : 0 <= W) by (pose proof (Rabs_pos (px v - px u)); lra).
  unfold dist2 in Hd. set (X := px v - px u) in *. set (Y := py v - py u) in *. set (x := px p - px q) in *. set (y := py p - py q) in *.
  apply Rabs_le_iff in H1, H2.
  assert (HX : X * X <= W * W) by nra. assert (HY : Y * Y <= W * W) by nra.
  assert (HS : (X * y - Y * x) * (X * y - Y * x) <= (1.5 * (r * W)) * (1.5 * (r * W))).
  { assert (C : (X * y - Y * x) * (X * y - Y * x) <= (X * X + Y * Y) * (x * x + y * y)).
    { assert (0 <= (X * x + Y * y) * (X * x + Y * y)) by apply Rle_0_sqr. nra. }
    assert (C2 : (X * X + Y * Y) * (x * x + y * y) <= (2 * (W * W)) * (r * r)).
    { apply Rmult_le_compat; try nra. }
    assert (0 <= (r * W) * (r * W)) by apply Rle_0_sqr. nra. }
  apply Rsqr_le_abs_0 in HS. rewrite (Rabs_right (1.5 * (r * W))) in HS; [exact HS|]. apply Rle_ge. apply Rmult_le_pos; [lra|]. now apply Rmult_le_pos.
Qed.
