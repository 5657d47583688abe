(** Segment-segment intersection in binary64. *)
From Coq Require Import Reals Lra Psatz.
From Flocq Require Import IEEE754.BinarySingleNaN Core.
From Verif Require Import RBase NumB64 NumRoom FBase FBuild GLines MGeometry MAlgorithms FPoint FLocate FCut FArea FMesh
  FBoxClip SpecGeom.
Open Scope R_scope.

(** all coordinates of the points at most [W] apart *)
Definition all_near (W : R) (l : list pt) : Prop :=
  forall x y, In x l -> In y l -> Rabs (px x - px y) <= W /\ Rabs (py x - py y) <= W.
Definition len1 (a b : pt) : R := Rabs (px b - px a) + Rabs (py b - py a).

(** two segments that cross: the ends of each on different sides of the other,
    by more than the rounding error *)
Definition clear_cross (W : R) (a b p q : pt) : Prop :=
  let d := 9 * (uro * (W * W)) in
  (d < orient a b p /\ orient a b q < - d \/ orient a b p < - d /\ d < orient a b q)
  /\ (d < orient p q a /\ orient p q b < - d \/ orient p q a < - d /\ d < orient p q b).

(** two segments that are apart: in x, in y, or both ends of one on one side of
    the other, with one end of pq not near the line ab *)
Definition gap1 (a b p q t : R) : Prop := t <= Rmin a b - Rmax p q \/ t <= Rmin p q - Rmax a b.
Definition one_side (d : R) (u v x y : pt) : Prop :=
  d < orient u v x /\ d < orient u v y \/ orient u v x < - d /\ orient u v y < - d.
Definition clear_apart (W : R) (a b p q : pt) : Prop :=
  let d := 9 * (uro * (W * W)) in let t := 2 * seg_tol p q in
  gap1 (px a) (px b) (px p) (px q) t \/ gap1 (py a) (py b) (py p) (py q) t
  \/ ((one_side d a b p q \/ one_side d p q a b)
      /\ (t * len1 a b + d <= Rabs (orient a b p) \/ t * len1 a b + d <= Rabs (orient a b q))).

Definition cross_uv (a b p q : pt) : R := (px b - px a) * (py q - py p) - (py b - py a) * (px q - px p).

Lemma max_near N T n d : 0 < n -> 0 <= d -> 0.9999 * n <= N <= 1.0001 * n ->
  0.9995 * d - n / 100000 <= T <= 1.0005 * d + n / 100000 -> 0.999 * Rmax n d <= Rmax N T <= 1.001 * Rmax n d.
Proof.
  intros Hn Hd HN HT. unfold Rmax. destruct (Rle_dec n d), (Rle_dec N T); lra.
Qed.

Section Lines64.
  Local Notation bounded := NumRoom.bounded.
  Variables (k : Z) (W : R).
  Hypothesis Hk : (-40 <= k <= 240)%Z.
  Hypothesis HW : bpow radix2 (-250) <= W <= bpow radix2 (k + 1).
  Let M := bpow radix2 k.
  Let m := uro * M.
  Let Q := uro * (W * W).
  Variables a b p q : point b64.
  Hypothesis (Ba : bpt k a) (Bb : bpt k b) (Bp : bpt k p) (Bq : bpt k q).
  Hypothesis HS : all_near W [rp a; rp b; rp p; rp q].

  Lemma hk1 : (-251 <= k <= 400)%Z. Proof. lia. Qed.
  Lemma hW1 : bpow radix2 (-400) <= W <= bpow radix2 (k + 1).
  Proof. split; [|apply HW]. eapply Rle_trans; [|apply HW]. apply bpow_le. lia. Qed.
  Lemma Qpos : 0 < Q. Proof. exact (qpos k W hW1). Qed.

  Lemma vec (x y : point b64) : bpt k x -> bpt k y -> In (rp x) [rp a; rp b; rp p; rp q] -> In (rp y) [rp a; rp b; rp p; rp q] ->
    vec_ok k W (to_vector x y) (Pt (px (rp y) - px (rp x)) (py (rp y) - py (rp x))).
  Proof.
    intros Bx By Ix Iy. destruct (HS _ _ Iy Ix) as (H1 & H2).
    apply (vec_diff k W hk1); auto; apply (bpt_up k); auto.
  Qed.

  (** which side of the line *)
  Lemma left_clear x u v : bpt k x -> bpt k u -> bpt k v -> In (rp x) [rp a; rp b; rp p; rp q] ->
    In (rp u) [rp a; rp b; rp p; rp q] -> In (rp v) [rp a; rp b; rp p; rp q] ->
    (9 * Q < orient (rp u) (rp v) (rp x) -> left_of x u (to_vector u v) = true)
    /\ (orient (rp u) (rp v) (rp x) < - (9 * Q) -> left_of x u (to_vector u v) = false).
  Proof.
    intros Bx Bu Bv Ix Iu Iv. pose proof Qpos as PQ.
    destruct (vec u v Bu Bv Iu Iv) as (U1 & U2 & U3 & U4 & U5 & U6).
    destruct (vec u x Bu Bx Iu Ix) as (X1 & X2 & X3 & X4 & X5 & X6).
    destruct (prod_ok k W hk1 hW1 _ _ _ _ U1 X2 U3 X4 U5 X6) as (F1 & N1).
    destruct (prod_ok k W hk1 hW1 _ _ _ _ U2 X1 U4 X3 U6 X5) as (F2 & N2).
    fold Q in N1, N2. cbn [px py] in N1, N2. apply Rabs_le_iff in N1, N2.
    change (nmul (px (to_vector u v)) (py (to_vector u x))) with (nmul (px (to_vector u v)) (nsub (py x) (py u))) in *.
    change (nmul (py (to_vector u v)) (px (to_vector u x))) with (nmul (py (to_vector u v)) (nsub (px x) (px u))) in *.
    unfold left_of. rewrite nltb_B by auto. unfold orient.
    split; intros H; [apply Rlt_bool_true|apply Rlt_bool_false]; lra.
  Qed.

  Lemma cross_val u v x y : bpt k u -> bpt k v -> bpt k x -> bpt k y ->
    In (rp u) [rp a; rp b; rp p; rp q] -> In (rp v) [rp a; rp b; rp p; rp q] ->
    In (rp x) [rp a; rp b; rp p; rp q] -> In (rp y) [rp a; rp b; rp p; rp q] ->
    bounded (2 * (k + 1) + 3) (cross_product (to_vector u v) (to_vector x y))
    /\ Rabs (B2R (cross_product (to_vector u v) (to_vector x y)) - cross_uv (rp u) (rp v) (rp x) (rp y)) <= 9 * Q.
  Proof.
    intros Bu Bv Bx By Iu Iv Ix Iy.
    destruct (cross_ok k W hk1 hW1 _ _ _ _ (vec u v Bu Bv Iu Iv) (vec x y Bx By Ix Iy)) as (F & N & L).
    cbn [px py] in N, L. fold Q in N. split; [split; auto|exact N].
    pose proof uro_small. pose proof uro_pos.
    assert (HQ : Q <= W * W / 1000000).
    { unfold Q. pose proof (Rle_0_sqr W) as S. unfold Rsqr in S. apply (Rmult_le_compat_r (W * W)) in H; lra. }
    assert (W * W <= bpow radix2 (2 * (k + 1))).
    { replace (2 * (k + 1))%Z with ((k + 1) + (k + 1))%Z by lia. rewrite bpow_plus.
      pose proof (bpow_gt_0 radix2 (-250)). apply Rmult_le_compat; lra. }
    rewrite bpow_plus. change (bpow radix2 3) with 8. pose proof Qpos.
    apply Rabs_le_iff in N, L. apply Rabs_le_iff. lra.
  Qed.
  Lemma cross_shared u v x : cross_uv u v u x = orient u v x.
  Proof. unfold cross_uv, orient. ring. Qed.

  (** the tolerance *)
  Notation tol := (nmax nmintol (nmul ntolfac (nmax (nabs (px (to_vector p q))) (nabs (py (to_vector p q)))))).
  Let st := seg_tol (rp p) (rp q).
  Lemma tol_val : bounded k (tol : b64) /\ 0.999 * st <= B2R (tol : b64) <= 1.001 * st.
  Proof.
    destruct Bp as (Px & Py), Bq as (Qx & Qy). pose proof uro_small as Su. pose proof uro_pos as Pu.
    assert (HkB : (-150 <= k <= 250)%Z) by lia.
    destruct (diff_err k HkB (px q) (px p) Qx Px) as (B1 & e1 & He1 & E1).
    destruct (diff_err k HkB (py q) (py p) Qy Py) as (B2 & e2 & He2 & E2).
    change (px (to_vector p q)) with (nsub (px q) (px p)). change (py (to_vector p q)) with (nsub (py q) (py p)).
    set (ux := nsub (px q) (px p)) in *. set (uy := nsub (py q) (py p)) in *.
    destruct (nabs_B ux) as (EX & FX). destruct (nabs_B uy) as (EY & FY).
    assert (FX' : is_finite (nabs ux) = true) by (rewrite FX; apply B1).
    assert (FY' : is_finite (nabs uy) = true) by (rewrite FY; apply B2).
    destruct (nmax_B (nabs ux) (nabs uy) FX' FY') as (EM & FM). set (mx := nmax (nabs ux) (nabs uy)) in *.
    rewrite EX, EY in EM.
    set (dx := px (rp q) - px (rp p)). set (dy := py (rp q) - py (rp p)).
    change (B2R (px q) - B2R (px p)) with dx in E1. change (B2R (py q) - B2R (py p)) with dy in E2.
    set (D := Rmax (Rabs dx) (Rabs dy)).
    assert (HD : 0 <= D) by (unfold D; pose proof (Rmax_l (Rabs dx) (Rabs dy)); pose proof (Rabs_pos dx); lra).
    assert (HmD : (1 - uro) * D <= B2R mx <= (1 + uro) * D).
    { rewrite EM, E1, E2, !Rabs_mult. apply Rabs_le_iff in He1, He2.
      rewrite (Rabs_pos_eq (1 + e1)), (Rabs_pos_eq (1 + e2)) by lra. unfold D.
      pose proof (Rabs_pos dx). pose proof (Rabs_pos dy).
      assert ((1 - uro) * Rabs dx <= Rabs dx * (1 + e1) <= (1 + uro) * Rabs dx) by (split; rewrite (Rmult_comm (Rabs dx)); apply Rmult_le_compat_r; lra).
      assert ((1 - uro) * Rabs dy <= Rabs dy * (1 + e2) <= (1 + uro) * Rabs dy) by (split; rewrite (Rmult_comm (Rabs dy)); apply Rmult_le_compat_r; lra).
      rewrite <- !RmaxRmult by lra.
      split; apply Rmax_lub.
      - eapply Rle_trans; [apply H1|apply Rmax_l].
      - eapply Rle_trans; [apply H2|apply Rmax_r].
      - eapply Rle_trans; [apply H1|apply Rmax_l].
      - eapply Rle_trans; [apply H2|apply Rmax_r]. }
    clear He1 He2 E1 E2 EM EX EY FX FY FX' FY'.
    assert (HDM : D <= bpow radix2 (k + 1)).
    { pose proof (diff_bound k (px q) (px p) Qx Px) as H1. pose proof (diff_bound k (py q) (py p) Qy Py) as H2.
      rewrite (twoM k) in H1, H2. unfold D, Rmax. destruct (Rle_dec _ _); assumption. }
    (* the factors *)
    assert (HT : is_finite (ntolfac : b64) = true /\ Rabs (B2R (ntolfac : b64) - / 1000000000000) <= / 1000000000000 / 100000).
    { split; [vm_compute; reflexivity|].
      replace (@ntolfac _ NumB64) with (B754_finite (prec:=prec) (emax:=emax) false 4951760157141521 (-92) eq_refl)
        by (apply B2SF_inj; vm_compute; reflexivity).
      unfold B2R, F2R. cbn [cond_Zopp Fnum Fexp]. change (bpow radix2 (-92)) with (/ IZR (2 ^ 92)).
      change (2 ^ 92)%Z with 4951760157141521099596496896%Z. apply Rabs_le_iff. split; lra. }
    assert (HN : is_finite (nmintol : b64) = true /\ Rabs (B2R (nmintol : b64) - / 1000000000000000) <= / 1000000000000000 / 100000).
    { split; [vm_compute; reflexivity|].
      replace (@nmintol _ NumB64) with (B754_finite (prec:=prec) (emax:=emax) false 5070602400912918 (-102) eq_refl)
        by (apply B2SF_inj; vm_compute; reflexivity).
      unfold B2R, F2R. cbn [cond_Zopp Fnum Fexp]. change (bpow radix2 (-102)) with (/ IZR (2 ^ 102)).
      change (2 ^ 102)%Z with 5070602400912917605986812821504%Z. apply Rabs_le_iff. split; lra. }
    destruct HT as (FT & HT), HN as (FN & HN). apply Rabs_le_iff in HT, HN.
    assert (Hmx : 0 <= B2R mx) by (eapply Rle_trans; [|apply HmD]; apply Rmult_le_pos; lra).
    destruct (mult_err (k + 1) ntolfac mx) as (B3 & e3 & h3 & He3 & Hh3 & E3); [lia|auto|auto| |].
    { rewrite Rabs_mult, (Rabs_pos_eq (B2R mx)), (Rabs_pos_eq (B2R (ntolfac : b64))) by lra.
      apply Rle_trans with (1 / 2 * B2R mx); [apply Rmult_le_compat_r; lra|].
      apply Rle_trans with (1 / 2 * ((1 + uro) * D)); [lra|]. assert (uro * D <= / 1000000 * D) by (apply Rmult_le_compat_r; lra). lra. }
    assert (He : eta <= / 1000000000000000 / 1000000000).
    { unfold eta. apply Rle_trans with (bpow radix2 (-100)); [apply bpow_le; lia|].
      change (bpow radix2 (-100)) with (/ IZR (2 ^ 100)). change (2 ^ 100)%Z with 1267650600228229401496703205376%Z. lra. }
    pose proof eta_pos as Pe.
    set (T := nmul ntolfac mx) in *. destruct (nmax_B nmintol T FN (proj1 B3)) as (ET & FT'). set (tl := nmax nmintol T) in *.
    assert (HTD : Rabs (B2R T - / 1000000000000 * D) <= / 1000000000000 * D / 10000 + eta).
    { rewrite E3. apply Rabs_le_iff in He3, Hh3.
      assert (G : (/ 1000000000000 * (1 - / 100000)) * ((1 - uro) * D) <= B2R (ntolfac : b64) * B2R mx <= (/ 1000000000000 * (1 + / 100000)) * ((1 + uro) * D)).
      { split; apply Rmult_le_compat; try lra; apply Rmult_le_pos; lra. }
      set (z := B2R (ntolfac : b64) * B2R mx) in *.
      assert (U2 : uro * D <= / 1000000 * D) by (apply Rmult_le_compat_r; lra).
      assert (Z1 : z <= / 1000000000000 * (1 + / 100000) * (1 + / 1000000) * D) by lra.
      assert (Z2 : / 1000000000000 * (1 - / 100000) * (1 - / 1000000) * D <= z) by lra.
      assert (Z3 : 0 <= z) by (apply Rmult_le_pos; lra).
      assert (Z4 : Rabs (z * e3) <= z * / 1000000) by (rewrite Rabs_mult, (Rabs_pos_eq z) by auto; apply Rmult_le_compat_l; auto; apply Rabs_le_iff; lra).
      apply Rabs_le_iff in Z4. apply Rabs_le_iff. replace (z * (1 + e3) + h3) with (z + z * e3 + h3) by ring. lra. }
    apply Rabs_le_iff in HTD.
    assert (HV : 0.999 * st <= B2R tl <= 1.001 * st).
    { rewrite ET. unfold st, seg_tol. fold dx dy. fold D. apply max_near; lra. }
    split; auto. split; auto.
    assert (Hst : st <= bpow radix2 k / 2).
    { unfold st, seg_tol. fold dx dy. fold D. apply Rmax_lub.
      - apply Rle_trans with (bpow radix2 (-40) / 2); [|apply Rmult_le_compat_r; [lra|apply bpow_le; lia]].
        change (bpow radix2 (-40)) with (/ IZR (2 ^ 40)). change (2 ^ 40)%Z with 1099511627776%Z. lra.
      - rewrite bpow_plus in HDM. change (bpow radix2 1) with 2 in HDM. pose proof (bpow_gt_0 radix2 k). lra. }
    pose proof (seg_tol_pos (rp p) (rp q)). fold st in H. rewrite Rabs_pos_eq by lra. lra.
  Qed.

  Lemma st_pos : 0 < st. Proof. apply seg_tol_pos. Qed.
  Lemma st_low : / 1000000000000000 <= st. Proof. apply Rmax_l. Qed.

  (** a side of the line by more than the error needs some length *)
  Lemma len1_low x : In x [rp a; rp b; rp p; rp q] -> 9 * Q < Rabs (orient (rp a) (rp b) x) ->
    bpow radix2 (-350) <= len1 (rp a) (rp b).
  Proof.
    intros Ix H. destruct (HS x (rp a) Ix ltac:(cbn; auto)) as (X & Y).
    assert (U : Rabs (orient (rp a) (rp b) x) <= len1 (rp a) (rp b) * W).
    { unfold orient, len1. eapply Rle_trans; [apply Rabs_triang|]. rewrite Rabs_Ropp, !Rabs_mult, Rmult_plus_distr_r.
      apply Rplus_le_compat; apply Rmult_le_compat_l; auto using Rabs_pos. }
    pose proof (bpow_gt_0 radix2 (-250)) as P. assert (PW : 0 < W) by (destruct HW; lra).
    assert (L : 9 * (uro * W) <= len1 (rp a) (rp b)).
    { apply (Rmult_le_reg_r W); auto. unfold Q in H. lra. }
    eapply Rle_trans; [|exact L].
    apply Rle_trans with (uro * bpow radix2 (-250)).
    - unfold uro. rewrite <- bpow_plus. apply bpow_le. lia.
    - pose proof uro_pos. assert (uro * bpow radix2 (-250) <= uro * W) by (apply Rmult_le_compat_l; [lra|apply HW]).
      assert (0 <= uro * W) by (apply Rmult_le_pos; lra). lra.
  Qed.

  Lemma sq_abs_le x y : 0 <= y -> x * x <= y * y -> Rabs x <= y.
  Proof. intros Hy H. rewrite <- (Rabs_pos_eq y) by auto. now apply Rsqr_le_abs_0. Qed.

  Lemma wpd_small (A : b64) : bounded (2 * (k + 1) + 3) A -> bpow radix2 (-350) <= len1 (rp a) (rp b) ->
    within_perpendicular_distance A (to_vector a b) tol = true -> Rabs (B2R A) <= 1.01 * (st * len1 (rp a) (rp b)).
  Proof.
    intros BA HL H. destruct tol_val as (BT & T1 & T2). pose proof st_pos as PS. pose proof st_low as LS.
    pose proof (wpd_bound (k + 1) ltac:(lia) A tol a b (bpt_up k a Ba) (bpt_up k b Bb) BA
                  (bounded_mono k (k + 1) _ ltac:(lia) BT) ltac:(lra) H) as G. cbv zeta in G.
    set (t := B2R (tol : b64)) in *. set (L := len1 (rp a) (rp b)) in *.
    set (dx := B2R (px b) - B2R (px a)) in *. set (dy := B2R (py b) - B2R (py a)) in *.
    assert (EL : L = Rabs dx + Rabs dy) by reflexivity.
    assert (N : dx * dx + dy * dy <= L * L).
    { rewrite EL. pose proof (Rabs_pos dx). pose proof (Rabs_pos dy).
      assert (Ex : dx * dx = Rabs dx * Rabs dx) by (rewrite <- Rabs_mult; symmetry; apply Rabs_pos_eq, Rle_0_sqr).
      assert (Ey : dy * dy = Rabs dy * Rabs dy) by (rewrite <- Rabs_mult; symmetry; apply Rabs_pos_eq, Rle_0_sqr).
      rewrite Ex, Ey. assert (0 <= Rabs dx * Rabs dy) by (apply Rmult_le_pos; auto). lra. }
    assert (PL : 0 < L) by (pose proof (bpow_gt_0 radix2 (-350)); lra).
    assert (LL : bpow radix2 (-700) <= L * L).
    { change (-700)%Z with (-350 + -350)%Z. rewrite bpow_plus. pose proof (bpow_gt_0 radix2 (-350)). apply Rmult_le_compat; lra. }
    assert (S1 : bpow radix2 (-50) <= st).
    { eapply Rle_trans; [|exact LS]. change (bpow radix2 (-50)) with (/ IZR (2 ^ 50)). change (2 ^ 50)%Z with 1125899906842624%Z. lra. }
    assert (U : bpow radix2 (-20) <= / 1000000).
    { change (bpow radix2 (-20)) with (/ IZR (2 ^ 20)). change (2 ^ 20)%Z with 1048576%Z. lra. }
    pose proof (bpow_gt_0 radix2 (-50)) as P50. pose proof (bpow_gt_0 radix2 (-700)) as P700. pose proof (bpow_gt_0 radix2 (-20)) as P20.
    assert (E0 : eta <= / 1000000 * (L * L)).
    { apply Rle_trans with (bpow radix2 (-20) * bpow radix2 (-700)); [unfold eta; rewrite <- bpow_plus; apply bpow_le; lia|].
      apply Rmult_le_compat; lra. }
    assert (E1 : eta <= / 1000000 * (st * (L * L))).
    { apply Rle_trans with (bpow radix2 (-20) * (bpow radix2 (-50) * bpow radix2 (-700))); [unfold eta; rewrite <- !bpow_plus; apply bpow_le; lia|].
      apply Rmult_le_compat; try lra; [apply Rmult_le_pos; lra|apply Rmult_le_compat; lra]. }
    assert (E2 : eta <= / 1000000 * (st * (st * (L * L)))).
    { apply Rle_trans with (bpow radix2 (-20) * (bpow radix2 (-50) * (bpow radix2 (-50) * bpow radix2 (-700)))); [unfold eta; rewrite <- !bpow_plus; apply bpow_le; lia|].
      apply Rmult_le_compat; try lra; [apply Rmult_le_pos; try lra; apply Rmult_le_pos; lra|].
      apply Rmult_le_compat; try lra; [apply Rmult_le_pos; lra|apply Rmult_le_compat; lra]. }
    pose proof eta_pos as Pe.
    assert (T0 : 0 <= t) by lra.
    assert (TT : t * t <= 1.0021 * (st * st)).
    { apply Rle_trans with ((1.001 * st) * (1.001 * st)); [apply Rmult_le_compat; lra|].
      assert (0 <= st * st) by (apply Rmult_le_pos; lra). lra. }
    assert (Ptt : 0 <= t * t) by (apply Rmult_le_pos; lra).
    assert (PLL : 0 <= L * L) by lra.
    set (Z := st * (st * (L * L))) in *.
    assert (G1 : t * t * (dx * dx + dy * dy) <= 1.0021 * Z).
    { apply Rle_trans with (t * t * (L * L)); [apply Rmult_le_compat_l; auto|].
      apply Rle_trans with (1.0021 * (st * st) * (L * L)); [apply Rmult_le_compat_r; auto|unfold Z; lra]. }
    assert (G2 : t * t * eta <= 1.0021 * (/ 1000000 * Z)).
    { apply Rle_trans with (1.0021 * (st * st) * (/ 1000000 * (L * L))); [apply Rmult_le_compat; lra|unfold Z; lra]. }
    assert (G3 : t * eta <= 1.001 * (/ 1000000 * Z)).
    { apply Rle_trans with (1.001 * st * (/ 1000000 * (st * (L * L)))); [apply Rmult_le_compat; lra|unfold Z; lra]. }
    assert (PZ : 0 <= Z) by (unfold Z; repeat apply Rmult_le_pos; lra).
    apply sq_abs_le; [assert (0 <= st * L) by (apply Rmult_le_pos; lra); lra|].
    replace (1.01 * (st * L) * (1.01 * (st * L))) with (1.0201 * Z) by (unfold Z; lra). lra.
  Qed.

  (** the location of a clear crossing *)
  Let D := cross_uv (rp a) (rp b) (rp p) (rp q).
  Definition reach (u v : pt) : R := Rmax (Rabs (px v - px u)) (Rabs (py v - py u)).

  Lemma coord_err (xa va t tau t0 : R) (xf vf tf : b64) : bounded k xf -> bounded (k + 1) vf -> bounded 2 tf ->
    B2R xf = xa -> (exists e, Rabs e <= uro /\ B2R vf = va * (1 + e)) -> B2R tf = t -> Rabs (t - t0) <= tau -> 0 <= t0 <= 1 ->
    Rabs va <= 2 * M ->
    is_finite (nadd xf (nmul tf vf)) = true
    /\ Rabs (B2R (nadd xf (nmul tf vf)) - (xa + t0 * va)) <= 1.001 * (tau * Rabs va) + 20 * m.
  Proof.
    intros Bx Bv Bt Ex (e & He & Ev) Et Htau Ht0 Hva. pose proof uro_small as Su. pose proof uro_pos as Pu. pose proof eta_pos as Pe.
    assert (PM : 0 < M) by apply bpow_gt_0.
    assert (Pm : 0 < m) by (apply Rmult_lt_0_compat; auto).
    assert (Em : eta <= m / 1000).
    { unfold m, M, uro, eta. rewrite <- bpow_plus. apply Rle_trans with (bpow radix2 (-10 + (-53 + k))); [apply bpow_le; lia|].
      rewrite bpow_plus. change (bpow radix2 (-10)) with (/ IZR 1024). pose proof (bpow_gt_0 radix2 (-53 + k)). lra. }
    assert (HmM : m <= / 1000000 * M) by (unfold m; apply Rmult_le_compat_r; lra).
    destruct Bx as (Fx & Bx), Bv as (Fv & Bv), Bt as (Ft & Bt). rewrite Ex in Bx. rewrite Et in Bt. fold M in Bx.
    change (bpow radix2 2) with 4 in Bt.
    assert (Bv' : Rabs (B2R vf) <= 2 * M) by (rewrite <- (twoM k) in Bv; exact Bv).
    assert (P1 : Rabs (B2R tf * B2R vf) <= bpow radix2 (k + 3)).
    { rewrite Rabs_mult, Et. rewrite bpow_plus. change (bpow radix2 3) with 8. fold M.
      apply Rle_trans with (4 * (2 * M)); [apply Rmult_le_compat; auto using Rabs_pos|lra]. }
    destruct (mult_err (k + 3) tf vf ltac:(lia) Ft Fv P1) as (B1 & e1 & h1 & He1 & Hh1 & E1).
    set (pr := nmul tf vf) in *.
    assert (P2 : Rabs (B2R xf + B2R pr) <= bpow radix2 (k + 4)).
    { destruct B1 as (_ & B1). rewrite bpow_plus in B1. rewrite bpow_plus. change (bpow radix2 3) with 8 in B1. change (bpow radix2 4) with 16.
      fold M in B1 |- *. rewrite Ex. apply Rabs_le_iff in B1, Bx. apply Rabs_le_iff. lra. }
    destruct (plus_err (k + 4) xf pr ltac:(lia) Fx (proj1 B1) P2) as (B2 & e2 & He2 & E2).
    split; [apply B2|]. rewrite E2, E1, Ex, Et, Ev.
    (* |prod - t0 va| *)
    set (g := (1 + e) * (1 + e1) - 1).
    assert (Hg : Rabs g <= 2.001 * uro).
    { replace g with (e + e1 + e * e1) by (unfold g; ring).
      assert (Rabs (e * e1) <= uro * / 1000000) by (rewrite Rabs_mult; apply Rmult_le_compat; auto using Rabs_pos; lra).
      apply Rabs_le_iff in He, He1, H. apply Rabs_le_iff. lra. }
    assert (Hd : Rabs ((t - t0) * va) <= tau * Rabs va) by (rewrite Rabs_mult; apply Rmult_le_compat_r; auto using Rabs_pos).
    assert (Htg : Rabs (t * (va * g)) <= 16.1 * m).
    { rewrite !Rabs_mult. apply Rle_trans with (4 * (2 * M * (2.001 * uro))).
      - apply Rmult_le_compat; auto using Rabs_pos; [apply Rmult_le_pos; auto using Rabs_pos|]. apply Rmult_le_compat; auto using Rabs_pos.
      - unfold m. assert (0 < uro * M) by (apply Rmult_lt_0_compat; auto). lra. }
    assert (Et0 : Rabs (xa + t0 * va) <= 3 * M).
    { assert (Rabs (t0 * va) <= 1 * (2 * M)) by (rewrite Rabs_mult; apply Rmult_le_compat; auto using Rabs_pos; rewrite Rabs_pos_eq; lra).
      apply Rabs_le_iff in Bx, H. apply Rabs_le_iff. lra. }
    replace ((xa + (t * (va * (1 + e)) * (1 + e1) + h1)) * (1 + e2) - (xa + t0 * va))
      with (((t - t0) * va + t * (va * g) + h1) + e2 * ((xa + t0 * va) + ((t - t0) * va + t * (va * g) + h1))) by (unfold g; ring).
    set (pe := (t - t0) * va + t * (va * g) + h1).
    assert (Hpe : Rabs pe <= tau * Rabs va + 16.2 * m).
    { unfold pe. apply Rabs_le_iff in Hd, Htg, Hh1. apply Rabs_le_iff. lra. }
    assert (P0 : 0 <= tau * Rabs va) by (eapply Rle_trans; [apply Rabs_pos|exact Hd]).
    assert (He2' : Rabs (e2 * ((xa + t0 * va) + pe)) <= 3 * m + / 1000000 * (tau * Rabs va + 16.2 * m)).
    { rewrite Rmult_plus_distr_l. eapply Rle_trans; [apply Rabs_triang|]. rewrite !Rabs_mult. apply Rplus_le_compat.
      - apply Rle_trans with (uro * (3 * M)); [apply Rmult_le_compat; auto using Rabs_pos|unfold m; lra].
      - apply Rmult_le_compat; auto using Rabs_pos. lra. }
    apply Rabs_le_iff in Hpe, He2'. apply Rabs_le_iff. lra.
  Qed.

  Lemma Dsab : D = orient (rp p) (rp q) (rp a) - orient (rp p) (rp q) (rp b).
  Proof. unfold D, cross_uv, orient. ring. Qed.

  Lemma location_64 : clear_cross W (rp a) (rp b) (rp p) (rp q) ->
    18 * Q < Rabs D /\
    exists r x, intersection_location_point (to_vector a b) (to_vector p q) a p tol = Ok r
      /\ on_segment (rp a) (rp b) x /\ on_segment (rp p) (rp q) x
      /\ match r with
         | None => Rabs D <= 2 * (st * len1 (rp a) (rp b)) + 9 * Q
         | Some c => close (37 * Q / Rabs D * reach (rp a) (rp b) + 27 * m) (rp c) x
         end.
  Proof.
    unfold clear_cross. cbv zeta. fold Q. intros (HP & HA). pose proof Qpos as PQ. pose proof st_pos as PS.
    pose proof uro_small as Su. pose proof uro_pos as Pu. pose proof eta_pos as Pe.
    set (Sa := orient (rp p) (rp q) (rp a)) in *. set (Sb := orient (rp p) (rp q) (rp b)) in *.
    assert (ED : D = Sa - Sb) by apply Dsab.
    assert (HD : 18 * Q < Rabs D) by (rewrite ED; destruct HA; [rewrite Rabs_pos_eq by lra|rewrite Rabs_left by lra]; lra).
    split; auto.
    destruct (crossing_point (rp a) (rp b) (rp p) (rp q)) as (T1 & T2 & EX).
    { unfold crossing, sa, sb, GLines.rp, rq. fold Sa Sb. lra. }
    unfold sa in T1, EX. fold Sa in T1, EX. change (den (rp a) (rp b) (rp p) (rp q)) with D in *.
    set (t0 := Sa / D) in *.
    unfold intersection_location_point.
    destruct (cross_val a b p q Ba Bb Bp Bq) as (BD & ND); [cbn; auto..|]. fold D in ND.
    destruct (within_perpendicular_distance _ _ _) eqn:EW.
    - exists None, (at_ (rp a) (rp b) t0). split; auto.
      split; [exists t0; auto|]. split; [rewrite EX; eexists; split; [exact T2|reflexivity]|].
      apply wpd_small in EW; auto.
      + assert (0 <= st * len1 (rp a) (rp b)) by (apply Rmult_le_pos; [lra|unfold len1; pose proof (Rabs_pos (px (rp b) - px (rp a))); pose proof (Rabs_pos (py (rp b) - py (rp a))); lra]).
        apply Rabs_le_iff in EW, ND. apply Rabs_le_iff. lra.
      + apply (len1_low (rp p)); [cbn; auto|]. destruct HP; [rewrite Rabs_pos_eq by lra|rewrite Rabs_left by lra]; lra.
    - destruct (cross_val a p p q Ba Bp Bp Bq) as (BN & NN); [cbn; auto..|].
      replace (cross_uv (rp a) (rp p) (rp p) (rp q)) with Sa in NN by (unfold Sa, cross_uv, orient; ring).
      set (Df := cross_product (to_vector a b) (to_vector p q)) in *. set (Nf := cross_product (to_vector a p) (to_vector p q)) in *.
      assert (Dp : 0 < Rabs D) by lra.
      assert (HDf : Rabs D / 2 <= Rabs (B2R Df)).
      { pose proof (Rabs_triang_inv D (D - B2R Df)) as Tr. replace (D - (D - B2R Df)) with (B2R Df) in Tr by ring.
        rewrite (Rabs_minus_sym D) in Tr. lra. }
      assert (Df0 : B2R Df <> 0) by (intros E; rewrite E, Rabs_R0 in HDf; lra).
      assert (Pdf : 0 < Rabs (B2R Df)) by lra.
      set (tau := 36 * Q / Rabs D).
      assert (Ptau : 0 < tau <= 2).
      { unfold tau. split; [apply Rmult_lt_0_compat; [lra|now apply Rinv_0_lt_compat]|].
        apply (Rmult_le_reg_r (Rabs D)); auto. unfold Rdiv. rewrite Rmult_assoc, Rinv_l by lra. lra. }
      assert (Hq : Rabs (B2R Nf / B2R Df - t0) <= tau).
      { replace (B2R Nf / B2R Df - t0) with (((B2R Nf - Sa) - t0 * (B2R Df - D)) * / B2R Df).
        2:{ unfold t0. field. split; auto. intros E. rewrite E, Rabs_R0 in Dp. lra. }
        rewrite Rabs_mult, Rabs_inv. unfold tau.
        apply Rle_trans with (18 * Q * / (Rabs D / 2)).
        - apply Rmult_le_compat; auto using Rabs_pos; [left; now apply Rinv_0_lt_compat| |apply Rinv_le; lra].
          assert (Rabs (t0 * (B2R Df - D)) <= 1 * (9 * Q)) by (rewrite Rabs_mult; apply Rmult_le_compat; auto using Rabs_pos; rewrite Rabs_pos_eq; lra).
          apply Rabs_le_iff in H, NN. apply Rabs_le_iff. lra.
        - right. field. lra. }
      assert (Hq3 : Rabs (B2R Nf / B2R Df) <= 3) by (apply Rabs_le_iff in Hq; apply Rabs_le_iff; lra).
      destruct (div_err 2 Nf Df ltac:(lia) (proj1 BN) (proj1 BD) Df0) as (ET & BT & e & h & He & Hh & ET').
      { change (bpow radix2 2) with 4. lra. }
      rewrite ET. cbn [bind]. set (tf := ndivraw Nf Df) in *.
      assert (Ht : Rabs (B2R tf - t0) <= tau + 3.1 * uro).
      { rewrite ET'. replace (B2R Nf / B2R Df * (1 + e) + h - t0) with ((B2R Nf / B2R Df - t0) + B2R Nf / B2R Df * e + h) by ring.
        assert (G : Rabs (B2R Nf / B2R Df * e) <= 3 * uro) by (rewrite Rabs_mult; apply Rmult_le_compat; auto using Rabs_pos).
        assert (eta <= 0.1 * uro).
        { unfold eta, uro. apply Rle_trans with (bpow radix2 (-10 + -53)); [apply bpow_le; lia|].
          rewrite bpow_plus. change (bpow radix2 (-10)) with (/ IZR 1024). pose proof (bpow_gt_0 radix2 (-53)). lra. }
        apply Rabs_le_iff in G, Hh, Hq. apply Rabs_le_iff. lra. }
      exists (Some (Pt (nadd (px a) (nmul tf (px (to_vector a b)))) (nadd (py a) (nmul tf (py (to_vector a b)))))), (at_ (rp a) (rp b) t0).
      split; auto. split; [exists t0; auto|]. split; [rewrite EX; eexists; split; [exact T2|reflexivity]|].
      assert (PM : 0 < M) by apply bpow_gt_0.
      assert (K : forall xa xb : b64, bounded k xa -> bounded k xb -> Rabs (B2R xb - B2R xa) <= reach (rp a) (rp b) ->
        Rabs (B2R (nadd xa (nmul tf (nsub xb xa))) - (B2R xa + t0 * (B2R xb - B2R xa))) <= 37 * Q / Rabs D * reach (rp a) (rp b) + 27 * m).
      { intros xa xb Bxa Bxb Hr.
        destruct (diff_err k ltac:(lia) xb xa Bxb Bxa) as (Bv & e1 & He1 & E1).
        pose proof (diff_bound k xb xa Bxb Bxa) as Hb. fold M in Hb.
        destruct (coord_err (B2R xa) (B2R xb - B2R xa) (B2R tf) (tau + 3.1 * uro) t0 xa (nsub xb xa) tf) as (_ & C); auto.
        { exists e1. auto. }
        eapply Rle_trans; [exact C|].
        set (v := Rabs (B2R xb - B2R xa)) in *. assert (Pv : 0 <= v) by apply Rabs_pos.
        assert (A1 : uro * v <= 2 * m) by (unfold m; apply Rle_trans with (uro * (2 * M)); [apply Rmult_le_compat_l; lra|lra]).
        assert (A2 : tau * v <= tau * reach (rp a) (rp b)) by (apply Rmult_le_compat_l; lra).
        replace (37 * Q / Rabs D) with (37 / 36 * tau) by (unfold tau; field; lra).
        assert (0 <= tau * v) by (apply Rmult_le_pos; lra). assert (0 < m) by (apply Rmult_lt_0_compat; auto). lra. }
      split; cbn [px py rp at_ to_vector]; apply K; try apply Ba; try apply Bb; [apply Rmax_l|apply Rmax_r].
  Qed.

  Notation four := [rp a; rp b; rp p; rp q].
  Lemma Ia : In (rp a) four. Proof. left; auto. Qed.
  Lemma Ib : In (rp b) four. Proof. right; left; auto. Qed.
  Lemma Ip : In (rp p) four. Proof. right; right; left; auto. Qed.
  Lemma Iq : In (rp q) four. Proof. right; right; right; left; auto. Qed.

  (** overlap along an axis *)
  Lemma overlap_yes (a1 b1 p1 q1 : b64) : bounded k a1 -> bounded k b1 -> bounded k p1 -> bounded k q1 ->
    Rmin (B2R a1) (B2R b1) <= Rmax (B2R p1) (B2R q1) -> Rmin (B2R p1) (B2R q1) <= Rmax (B2R a1) (B2R b1) ->
    has_overlap a1 b1 p1 q1 tol = true.
  Proof.
    intros A1 B1 P1 Q1 H1 H2. destruct tol_val as ((FT & _) & T1 & _). pose proof st_pos as PS.
    unfold has_overlap.
    assert (G : forall x y : b64, bounded k x -> bounded k y -> B2R x <= B2R y -> nltb (nsub x y) tol = true).
    { intros x y Hx Hy H. destruct (diff_err k ltac:(lia) x y Hx Hy) as ((F & _) & e & He & E).
      rewrite nltb_B by auto. apply Rlt_bool_true. rewrite E. pose proof uro_small. apply Rabs_le_iff in He.
      assert ((B2R y - B2R x) * (1 + e) >= 0) by (apply Rle_ge, Rmult_le_pos; lra). lra. }
    rewrite !G; auto.
    all: try solve [destruct (nmin_B p1 q1 (proj1 P1) (proj1 Q1)) as (E & F); destruct (nmax_B p1 q1 (proj1 P1) (proj1 Q1)) as (E' & F');
      destruct (nmin_B a1 b1 (proj1 A1) (proj1 B1)) as (E2 & F2); destruct (nmax_B a1 b1 (proj1 A1) (proj1 B1)) as (E2' & F2');
      rewrite ?E, ?E', ?E2, ?E2'; auto].
    all: unfold nmin, nmax; destruct (nltb _ _); auto.
  Qed.

  Lemma overlap_no (a1 b1 p1 q1 : b64) : bounded k a1 -> bounded k b1 -> bounded k p1 -> bounded k q1 ->
    gap1 (B2R a1) (B2R b1) (B2R p1) (B2R q1) (2 * st) -> has_overlap a1 b1 p1 q1 tol = false.
  Proof.
    intros A1 B1 P1 Q1 HG. destruct tol_val as ((FT & _) & _ & T2). pose proof st_pos as PS.
    unfold has_overlap.
    assert (G : forall x y : b64, bounded k x -> bounded k y -> 2 * st <= B2R x - B2R y -> nltb (nsub x y) tol = false).
    { intros x y Hx Hy H. destruct (diff_err k ltac:(lia) x y Hx Hy) as ((F & _) & e & He & E).
      rewrite nltb_B by auto. apply Rlt_bool_false. rewrite E. pose proof uro_small. apply Rabs_le_iff in He.
      assert (2 * st * (1 - / 1000000) <= (B2R x - B2R y) * (1 + e)) by (apply Rmult_le_compat; lra). lra. }
    assert (BM : forall x y : b64, bounded k x -> bounded k y -> bounded k (nmin x y) /\ bounded k (nmax x y)).
    { intros x y Hx Hy. unfold nmin, nmax. destruct (nltb x y), (nltb y x); auto. }
    destruct (BM a1 b1 A1 B1), (BM p1 q1 P1 Q1).
    destruct (nmin_B p1 q1 (proj1 P1) (proj1 Q1)) as (E & F); destruct (nmax_B p1 q1 (proj1 P1) (proj1 Q1)) as (E' & F');
      destruct (nmin_B a1 b1 (proj1 A1) (proj1 B1)) as (E2 & F2); destruct (nmax_B a1 b1 (proj1 A1) (proj1 B1)) as (E2' & F2').
    destruct HG as [HG|HG].
    - rewrite G; auto. now rewrite E2, E'.
    - rewrite (G (nmin p1 q1)); auto; [apply Bool.andb_false_r|]. now rewrite E, E2'.
  Qed.

  Lemma sub0 (x y : b64) : bounded k x -> bounded k y -> neqb (nsub y x) (nofZ 0) = true <-> B2R x = B2R y.
  Proof.
    intros Hx Hy. destruct (diff_err k ltac:(lia) y x Hy Hx) as ((F & _) & e & He & E).
    destruct (Zb_exact 0 ltac:(lia)) as (F0 & E0). rewrite neqb_B; auto. change (@nofZ b64 _) with Zb. rewrite E0, E.
    pose proof uro_small. apply Rabs_le_iff in He. case Req_bool_spec; intros H'; split; auto; try discriminate.
    - intros _. apply Rmult_integral in H'. lra.
    - intros Exy. destruct H'. rewrite Exy. ring.
  Qed.

  Lemma clear_cross_found : clear_cross W (rp a) (rp b) (rp p) (rp q) ->
    18 * Q < Rabs D /\
    exists r x, lines_intersect a b p q = Ok (true, r)
      /\ on_segment (rp a) (rp b) x /\ on_segment (rp p) (rp q) x
      /\ match r with
         | None => Rabs D <= 2 * (st * len1 (rp a) (rp b)) + 9 * Q
         | Some c => close (37 * Q / Rabs D * reach (rp a) (rp b) + 27 * m) (rp c) x
         end.
  Proof.
    intros HC. destruct (location_64 HC) as (HD & r & x & El & X1 & X2 & Hr). split; auto. exists r, x.
    split; [|auto]. pose proof Qpos as PQ.
    destruct Ba as (Ax & Ay). destruct Bb as (Bx & By). destruct Bp as (Px & Py). destruct Bq as (Qx & Qy).
    unfold lines_intersect.
    assert (D0 : D <> 0) by (intros E; rewrite E, Rabs_R0 in HD; lra).
    change (px (to_vector p q)) with (nsub (px q) (px p)). change (py (to_vector p q)) with (nsub (py q) (py p)).
    change (px (to_vector a b)) with (nsub (px b) (px a)). change (py (to_vector a b)) with (nsub (py b) (py a)).
    replace (_ || _)%bool with false.
    2:{ symmetry. apply Bool.orb_false_iff. split; apply Bool.not_true_is_false; rewrite Bool.andb_true_iff, !sub0 by auto; intros (E1 & E2);
        apply D0; unfold D, cross_uv; cbn [px py rp]; rewrite E1, E2; ring. }
    replace ((_ && _) && _)%bool with false.
    2:{ symmetry. apply Bool.andb_false_iff. left. apply Bool.not_true_is_false. rewrite Bool.andb_true_iff, !sub0 by auto. intros (E1 & E2).
        apply D0; unfold D, cross_uv; cbn [px py rp]; rewrite E1, E2; ring. }
    replace ((_ && _) && _)%bool with false.
    2:{ symmetry. apply Bool.andb_false_iff. left. apply Bool.not_true_is_false. rewrite Bool.andb_true_iff, !sub0 by auto. intros (E1 & E2).
        apply D0; unfold D, cross_uv; cbn [px py rp]; rewrite E1, E2; ring. }
    destruct X1 as (t & Ht & Ext), X2 as (s & Hs & Exs).
    assert (OV : overlap_within (rp a) (rp b) (rp p) (rp q) st /\ forall g, 0 < g -> overlap_within (rp a) (rp b) (rp p) (rp q) g).
    { split; [apply (common_overlap _ _ _ _ t s); auto; [congruence|apply st_pos]|].
      intros g Hg. apply (common_overlap _ _ _ _ t s); auto. congruence. }
    destruct OV as (_ & OV).
    assert (O1 : forall u v, (forall g, 0 < g -> u - v < g) -> u <= v).
    { intros u v H. apply Rnot_lt_le. intros L. specialize (H (u - v)). lra. }
    rewrite !overlap_yes; auto; try (apply O1; intros g Hg; destruct (OV g Hg) as ((G1 & G2) & (G3 & G4)); assumption).
    cbn [negb orb].
    destruct HC as (HP & HA). fold Q in HP, HA.
    destruct (left_clear a p q Ba Bp Bq Ia Ip Iq) as (La & La').
    destruct (left_clear b p q Bb Bp Bq Ib Ip Iq) as (Lb & Lb').
    destruct (left_clear p a b Bp Ba Bb Ip Ia Ib) as (Lp & Lp').
    destruct (left_clear q a b Bq Ba Bb Iq Ia Ib) as (Lq & Lq').
    change (to_vector p q) with (Pt (nsub (px q) (px p)) (nsub (py q) (py p))) in *.
    replace (_ && _)%bool with true.
    2:{ symmetry. apply andb_true_intro. split.
        - destruct HA as [(U & V)|(U & V)]; [rewrite La, Lb' by auto|rewrite La', Lb by auto]; reflexivity.
        - destruct HP as [(U & V)|(U & V)]; [rewrite Lp, Lq' by auto|rewrite Lp', Lq by auto]; reflexivity. }
    cbn [px py to_vector] in El |- *. rewrite El. reflexivity.
  Qed.

  Lemma clear_apart_not_found : clear_apart W (rp a) (rp b) (rp p) (rp q) -> lines_intersect a b p q = Ok (false, None).
  Proof.
    intros HC. pose proof Qpos as PQ. pose proof st_pos as PS.
    destruct Ba as (Ax & Ay). destruct Bb as (Bx & By). destruct Bp as (Px & Py). destruct Bq as (Qx & Qy).
    unfold lines_intersect.
    destruct (_ || _)%bool; auto. destruct ((_ && _) && _)%bool; auto. destruct ((_ && _) && _)%bool; auto.
    destruct HC as [HC|[HC|(HC & HF)]].
    - rewrite overlap_no; auto.
    - rewrite (overlap_no (py a)) by auto. rewrite Bool.orb_true_r. reflexivity.
    - destruct (_ || _)%bool; auto. fold Q in HC, HF. fold st in HF.
      destruct (left_clear a p q Ba Bp Bq Ia Ip Iq) as (La & La').
      destruct (left_clear b p q Bb Bp Bq Ib Ip Iq) as (Lb & Lb').
      destruct (left_clear p a b Bp Ba Bb Ip Ia Ib) as (Lp & Lp').
      destruct (left_clear q a b Bq Ba Bb Iq Ia Ib) as (Lq & Lq').
      replace (_ && _)%bool with false.
      2:{ symmetry. destruct HC as [HC|HC].
          - apply Bool.andb_false_iff. right. destruct HC as [(U & V)|(U & V)]; [rewrite Lp, Lq by auto|rewrite Lp', Lq' by auto]; reflexivity.
          - apply Bool.andb_false_iff. left. destruct HC as [(U & V)|(U & V)]; [rewrite La, Lb by auto|rewrite La', Lb' by auto]; reflexivity. }
      set (L := len1 (rp a) (rp b)) in *.
      assert (G : forall x, bpt k x -> In (rp x) [rp a; rp b; rp p; rp q] -> 2 * st * L + 9 * Q <= Rabs (orient (rp a) (rp b) (rp x)) ->
        within_perpendicular_distance (cross_product (to_vector a b) (to_vector a x)) (to_vector a b) tol = false).
      { intros x Hx Ix H. apply Bool.not_true_is_false. intros E.
        destruct (cross_val a b a x Ba Bb Ba Hx Ia Ib Ia Ix) as (BA & NA). rewrite cross_shared in NA.
        assert (L0 : 0 <= L) by (unfold L, len1; pose proof (Rabs_pos (px (rp b) - px (rp a))); pose proof (Rabs_pos (py (rp b) - py (rp a))); lra).
        destruct (Rle_lt_dec L 0) as [Z|Z].
        - assert (E0 : orient (rp a) (rp b) (rp x) = 0).
          { assert (EL : L = 0) by lra. unfold L, len1 in EL.
            pose proof (Rabs_pos (px (rp b) - px (rp a))) as H1. pose proof (Rabs_pos (py (rp b) - py (rp a))) as H2.
            unfold orient. rewrite <- (Rabs_R0) in EL. 
            assert (E1 : px (rp b) - px (rp a) = 0) by (destruct (Req_dec (px (rp b) - px (rp a)) 0) as [|N]; auto; apply Rabs_pos_lt in N; rewrite Rabs_R0 in EL; lra).
            assert (E2 : py (rp b) - py (rp a) = 0) by (destruct (Req_dec (py (rp b) - py (rp a)) 0) as [|N]; auto; apply Rabs_pos_lt in N; rewrite Rabs_R0 in EL; lra).
            rewrite E1, E2. ring. }
          rewrite E0, Rabs_R0 in H. assert (2 * st * L >= 0) by (apply Rle_ge, Rmult_le_pos; lra). lra.
        - assert (P : 0 < st * L) by (apply Rmult_lt_0_compat; auto).
          apply wpd_small in E; auto.
          + fold L in E. apply Rabs_le_iff in E, NA.
            assert (Rabs (orient (rp a) (rp b) (rp x)) <= 1.01 * (st * L) + 9 * Q) by (apply Rabs_le_iff; lra). lra.
          + apply (len1_low (rp x)); auto. lra. }
      destruct HF as [HF|HF].
      + rewrite (G p Bp Ip HF). reflexivity.
      + rewrite (G q Bq Iq HF), Bool.andb_false_r. reflexivity.
  Qed.

  (** the function returns *)
  Lemma wpd_zero (A : b64) : is_finite A = true -> B2R A = 0 -> plain_segment (rp a) (rp b) -> rp a <> rp b ->
    within_perpendicular_distance A (to_vector a b) tol = true.
  Proof.
    intros FA EA (PX & PY) Hne. destruct tol_val as ((FT & BT) & T1 & T2). pose proof st_low as LS.
    destruct Ba as (Ax & Ay). destruct Bb as (Bx & By).
    assert (G : forall x y : b64, bounded k x -> bounded k y -> zero_or_plain (B2R x) (B2R y) ->
      bounded (2 * k + 2) (nmul (nsub y x) (nsub y x)) /\ 0 <= B2R (nmul (nsub y x) (nsub y x))
      /\ (B2R x <> B2R y -> bpow radix2 (-500) <= B2R (nmul (nsub y x) (nsub y x)))).
    { intros x y Hx Hy HP.
      destruct (minus_val (k + 1) y x ltac:(lia) (proj1 Hy) (proj1 Hx)) as (E & (F & B)).
      { rewrite <- (twoM k). now apply diff_bound. }
      set (d := nsub y x) in *.
      assert (B2 : Rabs (B2R d * B2R d) <= bpow radix2 (2 * k + 2)).
      { rewrite Rabs_mult. replace (2 * k + 2)%Z with ((k + 1) + (k + 1))%Z by lia. rewrite bpow_plus.
        apply Rmult_le_compat; auto using Rabs_pos. }
      destruct (mult_val (2 * k + 2) d d ltac:(lia) F F B2) as (E' & B').
      split; auto. rewrite E'. split.
      - rewrite <- (proj2 (Zb_exact 0 ltac:(lia))). apply rnd_ge. rewrite (proj2 (Zb_exact 0 ltac:(lia))). apply Rle_0_sqr.
      - intros N. destruct HP as [HP|HP]; [contradiction|]. apply rnd_bpow; [lia|].
        assert (L : bpow radix2 (-250) <= Rabs (B2R d)).
        { rewrite E. destruct (Rle_lt_dec 0 (B2R y - B2R x)) as [S|S].
          - rewrite Rabs_pos_eq in HP by auto. eapply Rle_trans; [|apply Rle_abs]. apply rnd_bpow; auto. lia.
          - rewrite Rabs_left in HP by auto. rewrite <- Rabs_Ropp. eapply Rle_trans; [|apply Rle_abs].
            rewrite <- round_NE_opp. apply rnd_bpow; auto. lia. }
        replace (B2R d * B2R d) with (Rabs (B2R d) * Rabs (B2R d)) by (rewrite <- Rabs_mult; apply Rabs_pos_eq, Rle_0_sqr).
        change (-500)%Z with (-250 + -250)%Z. rewrite bpow_plus. pose proof (bpow_gt_0 radix2 (-250)). apply Rmult_le_compat; lra. }
    destruct (G (px a) (px b) Ax Bx PX) as ((F1 & B1) & P1 & L1). destruct (G (py a) (py b) Ay By PY) as ((F2 & B2) & P2 & L2). clear G.
    unfold within_perpendicular_distance, length_squared. cbn [px py to_vector].
    set (X := nmul (nsub (px b) (px a)) (nsub (px b) (px a))) in *. set (Y := nmul (nsub (py b) (py a)) (nsub (py b) (py a))) in *.
    assert (LL : bpow radix2 (-500) <= B2R X + B2R Y).
    { destruct (Req_dec (B2R (px a)) (B2R (px b))) as [E1|E1]; [|specialize (L1 E1); lra].
      destruct (Req_dec (B2R (py a)) (B2R (py b))) as [E2|E2]; [|specialize (L2 E2); lra].
      destruct Hne. unfold rp. now rewrite E1, E2. }
    destruct (plus_val (2 * k + 3) X Y ltac:(lia) F1 F2) as (E3 & (F3 & B3)).
    { replace (2 * k + 3)%Z with (1 + (2 * k + 2))%Z by lia. rewrite bpow_plus. change (bpow radix2 1) with 2.
      apply Rabs_le_iff in B1, B2. apply Rabs_le_iff. lra. }
    set (S := nadd X Y) in *.
    assert (L3 : bpow radix2 (-500) <= B2R S) by (rewrite E3; apply rnd_bpow; auto; lia).
    assert (LT : bpow radix2 (-51) <= B2R (tol : b64)).
    { eapply Rle_trans; [|exact T1]. change (bpow radix2 (-51)) with (/ IZR (2 ^ 51)). change (2 ^ 51)%Z with 2251799813685248%Z. lra. }
    set (tl := (tol : b64)) in *. pose proof (bpow_gt_0 radix2 (-500)) as P5. pose proof (bpow_gt_0 radix2 (-51)) as P6.
    destruct (mult_val (3 * k + 3) tl S ltac:(lia) FT F3) as (E4 & (F4 & B4)).
    { rewrite Rabs_mult. replace (3 * k + 3)%Z with (k + (2 * k + 3))%Z by lia. rewrite bpow_plus. apply Rmult_le_compat; auto using Rabs_pos. }
    set (R1 := nmul tl S) in *.
    assert (L4 : bpow radix2 (-551) <= B2R R1).
    { rewrite E4. apply rnd_bpow; [lia|]. change (-551)%Z with (-51 + -500)%Z. rewrite bpow_plus. apply Rmult_le_compat; lra. }
    pose proof (bpow_gt_0 radix2 (-551)) as P7.
    destruct (mult_val (4 * k + 3) R1 tl ltac:(lia) F4 FT) as (E5 & (F5 & B5)).
    { rewrite Rabs_mult. replace (4 * k + 3)%Z with ((3 * k + 3) + k)%Z by lia. rewrite bpow_plus. apply Rmult_le_compat; auto using Rabs_pos. }
    set (R2 := nmul R1 tl) in *.
    assert (L5 : bpow radix2 (-602) <= B2R R2).
    { rewrite E5. apply rnd_bpow; [lia|]. change (-602)%Z with (-551 + -51)%Z. rewrite bpow_plus. apply Rmult_le_compat; lra. }
    destruct (mult_val 0 A A ltac:(lia) FA FA) as (E6 & (F6 & _)).
    { rewrite EA, Rmult_0_l, Rabs_R0. apply bpow_ge_0. }
    change (nltb (nmul A A) R2 = true). rewrite nltb_B by auto. apply Rlt_bool_true. rewrite E6, EA, Rmult_0_l, round_0.
    - pose proof (bpow_gt_0 radix2 (-602)). lra.
    - apply valid_rnd_round_mode.
  Qed.

  Lemma lines_return : plain_segment (rp a) (rp b) -> exists r, lines_intersect a b p q = Ok r.
  Proof.
    intros PS. unfold lines_intersect.
    assert (HE : (neqb (px (to_vector a b)) (nofZ 0) && neqb (py (to_vector a b)) (nofZ 0))%bool = true \/ rp a <> rp b).
    { change (px (to_vector a b)) with (nsub (px b) (px a)). change (py (to_vector a b)) with (nsub (py b) (py a)).
      destruct Ba as (Ax & Ay). destruct Bb as (Bx & By).
      destruct (Req_dec (B2R (px a)) (B2R (px b))) as [E1|E1]; [|right; intros E; exact (E1 (f_equal px E))].
      destruct (Req_dec (B2R (py a)) (B2R (py b))) as [E2|E2]; [|right; intros E; exact (E2 (f_equal py E))].
      left. rewrite (proj2 (sub0 (px a) (px b) Ax Bx) E1), (proj2 (sub0 (py a) (py b) Ay By) E2). reflexivity. }
    destruct HE as [HE|HE]; [rewrite HE, Bool.orb_true_r; eauto|].
    destruct (_ || _)%bool; [eauto|]. destruct ((_ && _) && _)%bool; [eauto|]. destruct ((_ && _) && _)%bool; [eauto|].
    destruct (_ || _)%bool; [eauto|].
    destruct (_ && _)%bool.
    - unfold intersection_location_point. destruct (within_perpendicular_distance _ _ _) eqn:EW; [cbn [bind]; eauto|].
      destruct (cross_val a b p q Ba Bb Bp Bq Ia Ib Ip Iq) as ((FD & _) & _).
      set (Df := cross_product (to_vector a b) (to_vector p q)) in *.
      unfold ndiv. destruct (neqb Df (nofZ 0)) eqn:EZ; [|cbn [bind]; eauto].
      exfalso. destruct (Zb_exact 0 ltac:(lia)) as (F0 & Z0). change (@nofZ b64 _) with Zb in EZ. rewrite neqb_B, Z0 in EZ by auto.
      rewrite wpd_zero in EW; [discriminate|auto| |auto|auto].
      revert EZ. case Req_bool_spec; auto; discriminate.
    - destruct (_ && _)%bool; eauto.
  Qed.
End Lines64.
