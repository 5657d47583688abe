(** Property theorems: points exactly on a side of a face or on an edge of a network, in binary64 (C86). *)
From Flocq Require Import Core BinarySingleNaN.
From Verif Require Import RBase NumB64 NumSub NumRoom FBase FBuild MUtils MGeometry MCreation MAlgorithms MQuery MCelltree SpecTree SpecQuery SpecApi
  SpecPoly SpecGeom SpecMesh SpecConcave PMesh PInit PBuild PPoints PApi PNumber GTriangle GConvex GHull GRay GArea GFaces GConcave
  FMesh FPoint FLocate FEdgeTree Examples PropTree PropEdges PropPoints PropFloat PropFloatPoints PropConcave PropFloatConcave PropCorners PropFloatMidpoint PropAxis.
Open Scope R_scope.

(** a side at least 2^-400 long in x or in y *)
Definition long_side (u v : pt) : Prop := bpow radix2 (-400) <= Rabs (px v - px u) \/ bpow radix2 (-400) <= Rabs (py v - py u).
(** the tolerance is at least 2^-45 of the shorter extent of the side: nothing is asked for a horizontal or vertical side *)
Definition wide_enough (tol : R) (u v : pt) : Prop := bpow radix2 (-45) * Rmin (Rabs (px v - px u)) (Rabs (py v - py u)) <= tol.

(** ** The distance test *)
(** each nonzero number lies between two powers of two *)
Lemma octave x lo hi : (lo <= hi)%Z -> bpow radix2 lo <= x <= bpow radix2 hi -> exists e, (lo <= e <= hi)%Z /\ bpow radix2 e <= x < bpow radix2 (e + 1).
Proof.
  intros Hl (H1 & H2). pose proof (bpow_gt_0 radix2 lo). destruct (mag radix2 x) as (m & Hm). cbn in Hm.
  assert (N : x <> 0) by lra. specialize (Hm N). rewrite Rabs_pos_eq in Hm by lra. exists (m - 1)%Z. replace (m - 1 + 1)%Z with m by lia. split; [|exact Hm].
  assert (lo < m)%Z by (apply (lt_bpow radix2); lra). assert (m - 1 <= hi)%Z by (apply (le_bpow radix2); lra). lia.
Qed.

(** the product of two differences of exact product [z] *)
Lemma product_err (a b e f z : R) : a * b = z -> Rabs e <= uro -> Rabs f <= uro ->
  exists g h, Rabs g <= 4 * uro /\ Rabs h <= eta /\ rnd (a * (1 + e) * (b * (1 + f))) = z * (1 + g) + h.
Proof.
  intros Ez He Hf. destruct (rnd_any (a * (1 + e) * (b * (1 + f)))) as (d & h & Hd & Hh & E).
  exists ((1 + e) * (1 + f) * (1 + d) - 1), h. split; [|split; [exact Hh|]].
  - rewrite uro_val in *. set (w := / 9007199254740992) in *. assert (W : 0 < w < / 1000) by (unfold w; lra). clearbody w.
    assert (EF : Rabs (e + f + e * f) <= 5 / 2 * w).
    { assert (Rabs (e * f) <= w * (/ 1000)) by (rewrite Rabs_mult; apply Rmult_le_compat; try apply Rabs_pos; lra).
      eapply Rle_trans; [apply Rabs_triang|]. pose proof (Rabs_triang e f). lra. }
    replace ((1 + e) * (1 + f) * (1 + d) - 1) with ((e + f + e * f) + d + (e + f + e * f) * d) by ring.
    assert (Rabs ((e + f + e * f) * d) <= 5 / 2 * w * (/ 1000)) by (rewrite Rabs_mult; apply Rmult_le_compat; try apply Rabs_pos; lra).
    eapply Rle_trans; [apply Rabs_triang|]. pose proof (Rabs_triang (e + f + e * f) d). lra.
  - rewrite E, <- Ez. ring.
Qed.

Section Found.
  Variables (p u v : point b64) (tol : b64).
  Hypothesis Bp : bpt 240 p.
  Hypothesis Bu : bpt 240 u.
  Hypothesis Bv : bpt 240 v.
  Hypothesis Bt : bounded 250 tol.
  Hypothesis Ht : bpow radix2 (-100) <= B2R tol.
  Hypothesis Hl : long_side (rp u) (rp v).
  Hypothesis Hw : wide_enough (B2R tol) (rp u) (rp v).
  Hypothesis Ho : on_segment (rp u) (rp v) (rp p).

  Let dx := B2R (px v) - B2R (px u).
  Let dy := B2R (py v) - B2R (py u).

  Lemma sub_err (x y : b64) : bounded 240 x -> bounded 240 y ->
    bounded 241 (nsub x y) /\ exists e, Rabs e <= uro /\ B2R (nsub x y) = (B2R x - B2R y) * (1 + e).
  Proof.
    intros X Y. split; [exact (bounded_minus 240 x y ltac:(lia) X Y)|].
    destruct (diff_bounded x y) as (_ & E); [apply (bounded_mono 240); [lia|exact X]|apply (bounded_mono 240); [lia|exact Y]|].
    destruct (rnd_minus x y) as (e & He & E'). exists e. split; auto. rewrite E. exact E'.
  Qed.

  Lemma cross_small : bounded 483 (cross_product (to_vector p u) (to_vector p v))
    /\ Rabs (B2R (cross_product (to_vector p u) (to_vector p v))) <= 16 * uro * (Rabs dx * Rabs dy) + 4 * eta.
  Proof.
    destruct Ho as (s & Hs & Es). pose proof Bp as (Px & Py). pose proof Bu as (Ux & Uy). pose proof Bv as (Vx & Vy).
    assert (SX : B2R (px p) = B2R (px u) + s * dx) by (apply (f_equal px) in Es; exact Es).
    assert (SY : B2R (py p) = B2R (py u) + s * dy) by (apply (f_equal py) in Es; exact Es).
    destruct (sub_err _ _ Ux Px) as (A1 & e1 & He1 & E1). destruct (sub_err _ _ Uy Py) as (A2 & e2 & He2 & E2).
    destruct (sub_err _ _ Vx Px) as (A3 & e3 & He3 & E3). destruct (sub_err _ _ Vy Py) as (A4 & e4 & He4 & E4).
    unfold cross_product, to_vector. cbn [px py].
    assert (P2 : forall w z : b64, bounded 241 w -> bounded 241 z -> bounded 482 (nmul w z) /\ B2R (nmul w z) = rnd (B2R w * B2R z)).
    { intros w z W Z. destruct (mult_val 482 w z ltac:(lia) (proj1 W) (proj1 Z)) as (E & B); auto.
      rewrite Rabs_mult. change 482%Z with (241 + 241)%Z. rewrite bpow_plus. apply Rmult_le_compat; try apply Rabs_pos; [apply W|apply Z]. }
    destruct (P2 _ _ A1 A4) as (B1 & F1). destruct (P2 _ _ A2 A3) as (B2 & F2).
    set (P := nmul (nsub (px u) (px p)) (nsub (py v) (py p))) in *. set (Q := nmul (nsub (py u) (py p)) (nsub (px v) (px p))) in *.
    split; [exact (bounded_minus 482 P Q ltac:(lia) B1 B2)|].
    set (z := - (s * (1 - s)) * (dx * dy)).
    destruct (product_err (B2R (px u) - B2R (px p)) (B2R (py v) - B2R (py p)) e1 e4 z) as (g1 & h1 & G1 & H1 & R1); auto.
    { replace (B2R (py v)) with (B2R (py u) + dy) by (unfold dy; ring). rewrite SX, SY. unfold z. ring. }
    destruct (product_err (B2R (py u) - B2R (py p)) (B2R (px v) - B2R (px p)) e2 e3 z) as (g2 & h2 & G2 & H2 & R2); auto.
    { replace (B2R (px v)) with (B2R (px u) + dx) by (unfold dx; ring). rewrite SX, SY. unfold z. ring. }
    rewrite <- E1, <- E4, <- F1 in R1. rewrite <- E2, <- E3, <- F2 in R2.
    destruct (minus_val 483 P Q ltac:(lia) (proj1 B1) (proj1 B2)) as (EM & _).
    { destruct B1 as (_ & B1), B2 as (_ & B2). change 483%Z with (482 + 1)%Z. rewrite bpow_plus. change (bpow radix2 1) with 2.
      eapply Rle_trans; [apply Rabs_triang|]. rewrite Rabs_Ropp. lra. }
    destruct (rnd_minus P Q) as (e & He & EE). rewrite EM, EE, Rabs_mult.
    assert (Z : Rabs z <= Rabs dx * Rabs dy).
    { unfold z. rewrite Rabs_mult, Rabs_Ropp, (Rabs_mult dx dy).
      assert (T0 : 0 <= s * (1 - s)) by (apply Rmult_le_pos; lra). assert (T1 : s * (1 - s) <= 1) by (assert (0 <= s * s) by (apply Rmult_le_pos; lra); lra).
      rewrite (Rabs_pos_eq (s * (1 - s))) by exact T0. pose proof (Rmult_le_pos _ _ (Rabs_pos dx) (Rabs_pos dy)) as T.
      rewrite <- (Rmult_1_l (Rabs dx * Rabs dy)) at 2. apply Rmult_le_compat_r; assumption. }
    assert (D : Rabs (B2R P - B2R Q) <= 8 * uro * (Rabs dx * Rabs dy) + 2 * eta).
    { rewrite R1, R2. replace (z * (1 + g1) + h1 - (z * (1 + g2) + h2)) with (z * (g1 - g2) + (h1 - h2)) by ring.
      eapply Rle_trans; [apply Rabs_triang|]. apply Rplus_le_compat.
      - rewrite Rabs_mult, (Rmult_comm (Rabs z)). apply Rmult_le_compat; try apply Rabs_pos; auto.
        eapply Rle_trans; [apply Rabs_triang|]. rewrite Rabs_Ropp. lra.
      - eapply Rle_trans; [apply Rabs_triang|]. rewrite Rabs_Ropp. lra. }
    assert (D2 : Rabs (1 + e) <= 2).
    { eapply Rle_trans; [apply Rabs_triang|]. rewrite Rabs_R1. assert (uro <= 1) by (rewrite uro_val; lra). lra. }
    replace (16 * uro * (Rabs dx * Rabs dy) + 4 * eta) with ((8 * uro * (Rabs dx * Rabs dy) + 2 * eta) * 2) by ring.
    apply Rmult_le_compat; try apply Rabs_pos; assumption.
  Qed.

  Lemma length_ge e : (-400 <= e <= 250)%Z -> bpow radix2 e <= Rabs dx \/ bpow radix2 e <= Rabs dy ->
    bounded 503 (length_squared (to_vector u v)) /\ bpow radix2 (e + e) <= B2R (length_squared (to_vector u v)).
  Proof.
    intros He H. pose proof Bu as (Ux & Uy). pose proof Bv as (Vx & Vy).
    assert (U250 : forall x : b64, bounded 240 x -> bounded 250 x) by (intros x X; apply (bounded_mono 240); [lia|exact X]).
    destruct (diff_bounded (px v) (px u) (U250 _ Vx) (U250 _ Ux)) as (Dx & Ex). destruct (diff_bounded (py v) (py u) (U250 _ Vy) (U250 _ Uy)) as (Dy & Ey).
    assert (H' : bpow radix2 e <= Rabs (B2R (nsub (px v) (px u))) \/ bpow radix2 e <= Rabs (B2R (nsub (py v) (py u)))).
    { rewrite Ex, Ey. destruct H as [H|H]; [left|right]; (apply rnd_bpow_abs; [lia|exact H]). }
    unfold length_squared, to_vector. cbn [px py]. set (X := nsub (px v) (px u)) in *. set (Y := nsub (py v) (py u)) in *.
    destruct Dx as (Fx & Bx), Dy as (Fy & By).
    destruct (mult_val 502 X X ltac:(lia) Fx Fx (square_le _ 251 Bx)) as (EX & (Fxx & Bxx)).
    destruct (mult_val 502 Y Y ltac:(lia) Fy Fy (square_le _ 251 By)) as (EY & (Fyy & Byy)).
    assert (Nx : 0 <= B2R (nmul X X)) by (rewrite EX, <- rnd_0; apply rnd_mono; apply Rle_0_sqr).
    assert (Ny : 0 <= B2R (nmul Y Y)) by (rewrite EY, <- rnd_0; apply rnd_mono; apply Rle_0_sqr).
    destruct (plus_val 503 _ _ ltac:(lia) Fxx Fyy) as (E & B).
    { change 503%Z with (502 + 1)%Z. rewrite bpow_plus. change (bpow radix2 1) with 2. revert Bxx Byy. unfold Rabs; repeat destruct Rcase_abs; lra. }
    split; [exact B|]. change (@nadd b64 _) with (@nadd b64 NumB64) in *. rewrite E. apply rnd_bpow_ge; [lia|]. destruct H' as [K|K].
    - pose proof (square_ge X e ltac:(lia) K) as S. apply (rnd_bpow_ge (e + e) _ ltac:(lia)) in S. rewrite <- EX in S. lra.
    - pose proof (square_ge Y e ltac:(lia) K) as S. apply (rnd_bpow_ge (e + e) _ ltac:(lia)) in S. rewrite <- EY in S. lra.
  Qed.

  Lemma found_within : within_perpendicular_distance (cross_product (to_vector p u) (to_vector p v)) (to_vector u v) tol = true.
  Proof.
    destruct cross_small as (BA & HA). set (A := cross_product _ _) in *.
    assert (HM : bpow radix2 (-400) <= Rmax (Rabs dx) (Rabs dy)).
    { destruct Hl as [H|H]; [apply Rle_trans with (Rabs dx); [exact H|apply Rmax_l]|apply Rle_trans with (Rabs dy); [exact H|apply Rmax_r]]. }
    assert (D : forall x y : b64, bounded 240 x -> bounded 240 y -> Rabs (B2R x - B2R y) <= bpow radix2 250).
    { intros x y (_ & X) (_ & Y). apply Rle_trans with (bpow radix2 (240 + 1)); [|apply bpow_le; lia]. rewrite bpow_plus. change (bpow radix2 1) with 2.
      eapply Rle_trans; [apply Rabs_triang|]. rewrite Rabs_Ropp. lra. }
    assert (HM' : Rmax (Rabs dx) (Rabs dy) <= bpow radix2 250) by (apply Rmax_lub; apply D; first [apply Bv|apply Bu]).
    destruct (octave _ (-400) 250 ltac:(lia) (conj HM HM')) as (e & He & E1 & E2).
    assert (Pt : B2R tol <= bpow radix2 250) by (eapply Rle_trans; [apply Rle_abs|apply Bt]).
    destruct (octave _ (-100) 250 ltac:(lia) (conj Ht Pt)) as (t & Hte & T1 & T2).
    destruct (length_ge e ltac:(lia)) as ((FL & BL) & HL).
    { revert E1. unfold Rmax. destruct (Rle_dec (Rabs dx) (Rabs dy)); auto. }
    set (L := length_squared _) in *. destruct Bt as (Ft & Bt').
    unfold within_perpendicular_distance. fold L.
    destruct (mult_val 753 tol L ltac:(lia) Ft FL) as (EL & (F1 & B1)).
    { rewrite Rabs_mult. change 753%Z with (250 + 503)%Z. rewrite bpow_plus. apply Rmult_le_compat; auto using Rabs_pos. }
    destruct (mult_val 1003 (nmul tol L) tol ltac:(lia) F1 Ft) as (ER & (F2 & B2)).
    { rewrite Rabs_mult. change 1003%Z with (753 + 250)%Z. rewrite bpow_plus. apply Rmult_le_compat; auto using Rabs_pos. }
    assert (G1 : bpow radix2 (t + (e + e)) <= B2R (nmul tol L)).
    { rewrite EL. apply rnd_bpow_ge; [lia|]. rewrite bpow_plus. apply Rmult_le_compat; auto using bpow_ge_0. }
    assert (G2 : bpow radix2 (t + (e + e) + t) <= B2R (nmul (nmul tol L) tol)).
    { rewrite ER. apply rnd_bpow_ge; [lia|]. rewrite bpow_plus. apply Rmult_le_compat; auto using bpow_ge_0. }
    (* the product of the extents *)
    assert (MM : Rabs dx * Rabs dy = Rmax (Rabs dx) (Rabs dy) * Rmin (Rabs dx) (Rabs dy)).
    { destruct (Rle_lt_dec (Rabs dx) (Rabs dy)); [rewrite Rmax_right, Rmin_left by lra|rewrite Rmax_left, Rmin_right by lra]; ring. }
    assert (Hm : Rmin (Rabs dx) (Rabs dy) <= bpow radix2 (t + 46)).
    { unfold wide_enough in Hw. change (px (rp v) - px (rp u)) with dx in Hw. change (py (rp v) - py (rp u)) with dy in Hw.
      apply Rmult_le_reg_l with (bpow radix2 (-45)); [apply bpow_gt_0|]. rewrite <- bpow_plus. replace (-45 + (t + 46))%Z with (t + 1)%Z by lia. lra. }
    assert (Nm : 0 <= Rmin (Rabs dx) (Rabs dy)) by (apply Rmin_glb; apply Rabs_pos).
    assert (NM : 0 <= Rmax (Rabs dx) (Rabs dy)) by (apply Rle_trans with (Rabs dx); [apply Rabs_pos|apply Rmax_l]).
    assert (X1 : 16 * uro * (Rabs dx * Rabs dy) <= bpow radix2 (e + t - 2)).
    { rewrite MM. apply Rle_trans with (16 * uro * (bpow radix2 (e + 1) * bpow radix2 (t + 46))).
      - apply Rmult_le_compat_l; [pose proof uro_pos; lra|]. apply Rmult_le_compat; auto. lra.
      - unfold uro. change 16 with (bpow radix2 4). rewrite <- !bpow_plus. apply bpow_le. lia. }
    assert (X2 : 4 * eta <= bpow radix2 (e + t - 2)).
    { unfold eta. change 4 with (bpow radix2 2). rewrite <- bpow_plus. apply bpow_le. lia. }
    assert (X3 : Rabs (B2R A) <= bpow radix2 (e + t - 1)).
    { replace (e + t - 1)%Z with (e + t - 2 + 1)%Z by lia. rewrite bpow_plus. change (bpow radix2 1) with 2. lra. }
    destruct (mult_val (e + t - 1 + (e + t - 1)) A A ltac:(lia) (proj1 BA) (proj1 BA)) as (EA & (F3 & B3)).
    { rewrite Rabs_mult, bpow_plus. apply Rmult_le_compat; auto using Rabs_pos. }
    rewrite (nltb_B _ _ F3 F2). apply Rlt_bool_true. apply Rle_lt_trans with (bpow radix2 (e + t - 1 + (e + t - 1))).
    - eapply Rle_trans; [apply Rle_abs|exact B3].
    - eapply Rlt_le_trans; [|exact G2]. apply bpow_lt. lia.
  Qed.

  Lemma found_bounds : in_bounds p u v = true.
  Proof.
    destruct Ho as (s & Hs & Es).
    destruct Bp as ((Fpx & _) & (Fpy & _)), Bu as ((Fux & _) & (Fuy & _)), Bv as ((Fvx & _) & (Fvy & _)).
    assert (SX : B2R (px p) = B2R (px u) + s * (B2R (px v) - B2R (px u))) by (apply (f_equal px) in Es; exact Es).
    assert (SY : B2R (py p) = B2R (py u) + s * (B2R (py v) - B2R (py u))) by (apply (f_equal py) in Es; exact Es).
    assert (BT : forall a b, between a b (a + s * (b - a))).
    { intros a b. unfold between. destruct (Rle_lt_dec a b) as [H|H].
      - rewrite Rmin_left, Rmax_right by lra. assert (0 <= s * (b - a)) by (apply Rmult_le_pos; lra). assert (0 <= (1 - s) * (b - a)) by (apply Rmult_le_pos; lra). lra.
      - rewrite Rmin_right, Rmax_left by lra. assert (0 <= s * (a - b)) by (apply Rmult_le_pos; lra). assert (0 <= (1 - s) * (a - b)) by (apply Rmult_le_pos; lra). lra. }
    pose proof (BT (B2R (px u)) (B2R (px v))) as (X1 & X2). pose proof (BT (B2R (py u)) (B2R (py v))) as (X3 & X4). rewrite <- SX in X1, X2. rewrite <- SY in X3, X4.
    destruct (nmin_B (px u) (px v) Fux Fvx) as (E1 & G1), (nmax_B (px u) (px v) Fux Fvx) as (E2 & G2).
    destruct (nmin_B (py u) (py v) Fuy Fvy) as (E3 & G3), (nmax_B (py u) (py v) Fuy Fvy) as (E4 & G4).
    assert (Y1 : nleb (nmin (px u) (px v)) (px p) = true) by (rewrite (nleb_B _ _ G1 Fpx), E1; now apply Rle_bool_true).
    assert (Y2 : nleb (px p) (nmax (px u) (px v)) = true) by (rewrite (nleb_B _ _ Fpx G2), E2; now apply Rle_bool_true).
    assert (Y3 : nleb (nmin (py u) (py v)) (py p) = true) by (rewrite (nleb_B _ _ G3 Fpy), E3; now apply Rle_bool_true).
    assert (Y4 : nleb (py p) (nmax (py u) (py v)) = true) by (rewrite (nleb_B _ _ Fpy G4), E4; now apply Rle_bool_true).
    unfold in_bounds. cbv zeta. rewrite Y1, Y2, Y3, Y4. cbn [andb]. rewrite !Bool.andb_true_r. apply Bool.orb_negb_r.
  Qed.

  Lemma found_neq : point_eqb v u = false.
  Proof.
    destruct (point_eqb v u) eqn:E; auto. exfalso. apply (eqb_rp v u) in E; [|split; apply Bv|split; apply Bu].
    unfold long_side in Hl. rewrite E, !Rminus_eq_0, Rabs_R0 in Hl. pose proof (bpow_gt_0 radix2 (-400)). lra.
  Qed.
  Lemma found_on_edge : point_on_edge p [u; v] tol = Ok true.
  Proof. rewrite (point_on_edge_B 240) by assumption. rewrite found_neq, found_within, found_bounds. reflexivity. Qed.
End Found.

(** ** Polygons of any shape *)
Lemma side_loop (p : point b64) (tol : b64) : bpt 240 p -> bounded 250 tol -> bpow radix2 (-100) <= B2R tol ->
  forall l v0 c, bpt 240 v0 -> Forall (bpt 240) l ->
  (exists u v, In (u, v) (chain (rp v0) (map rp l)) /\ long_side u v /\ wide_enough (B2R tol) u v /\ on_segment u v (rp p)) ->
  pip_or_edge_loop p tol v0 (to_vector p v0) l c = Ok true.
Proof.
  intros Bp Bt Ht. induction l as [|v1 l IH]; intros v0 c B0 BL (u & v & Hin & H1 & H2 & H3); cbn [map chain] in Hin; [destruct Hin|].
  inversion BL as [|? ? B1 BL']; subst. cbn [pip_or_edge_loop].
  assert (F : forall q, bpt 240 q -> finite_point q) by (intros q ((A & _) & (B & _)); split; assumption).
  destruct (point_eqb v1 v0) eqn:E.
  - pose proof E as E'. apply (eqb_rp v1 v0 (F _ B1) (F _ B0)) in E'. rewrite E' in Hin. destruct Hin as [Hin|Hin].
    + apply pair_equal_spec in Hin as (<- & <-). unfold long_side in H1. rewrite !Rminus_eq_0, Rabs_R0 in H1. pose proof (bpow_gt_0 radix2 (-400)). lra.
    + apply IH; eauto 8.
  - destruct (within_perpendicular_distance _ _ _ && in_bounds p v0 v1)%bool eqn:W; [reflexivity|].
    destruct (crosses_total p v0 v1 (F _ B0) (F _ B1)) as (b & ->). cbn [bind].
    destruct Hin as [Hin|Hin]; [|apply IH; eauto 8]. exfalso. apply pair_equal_spec in Hin as (<- & <-).
    rewrite (found_within p v0 v1 tol Bp B0 B1 Bt Ht H1 H2 H3), (found_bounds p v0 v1 Bp B0 B1 H3) in W. discriminate.
Qed.

Lemma side_polygon (p : point b64) (tol : b64) poly : bpt 240 p -> bounded 250 tol -> bpow radix2 (-100) <= B2R tol -> Forall (bpt 240) poly ->
  (exists u v, In (u, v) (poly_edges (map rp poly)) /\ long_side u v /\ wide_enough (B2R tol) u v /\ on_segment u v (rp p)) ->
  point_in_polygon_or_on_edge p poly tol = Ok true.
Proof.
  intros Bp Bt Ht HB H. assert (Hn : poly <> []) by (intros ->; destruct H as (u & v & [] & _)).
  destruct (exists_last Hn) as (l & z & ->). unfold point_in_polygon_or_on_edge. rewrite aget_last. cbn [bind].
  assert (EE : poly_edges (map rp (l ++ [z])) = chain (rp z) (map rp (l ++ [z]))) by (unfold poly_edges; rewrite map_app; cbn [map]; rewrite last_last; reflexivity).
  rewrite EE in H. assert (Bz : bpt 240 z) by (rewrite Forall_forall in HB; apply HB; apply in_or_app; right; now left).
  apply side_loop; auto.
Qed.

(** ** The default tolerance is wide enough for every side *)
Lemma diagonal_ge e (b : box b64) : (-400 <= e <= 251)%Z ->
  bounded 250 (xmin b) -> bounded 250 (xmax b) -> bounded 250 (ymin b) -> bounded 250 (ymax b) ->
  bpow radix2 e <= B2R (xmax b) - B2R (xmin b) -> bpow radix2 e <= B2R (snd (bbox_distance b)).
Proof.
  intros He B1 B2 B3 B4 H. unfold bbox_distance. cbn [snd].
  destruct (diff_bounded _ _ B2 B1) as ((Fx & Bx) & Ex). destruct (diff_bounded _ _ B4 B3) as ((Fy & By) & Ey).
  set (X := nsub (xmax b) (xmin b)) in *. set (Y := nsub (ymax b) (ymin b)) in *.
  destruct (mult_val 502 X X ltac:(lia) Fx Fx (square_le _ 251 Bx)) as (EX & (Fxx & Bxx)).
  destruct (mult_val 502 Y Y ltac:(lia) Fy Fy (square_le _ 251 By)) as (EY & (Fyy & Byy)).
  assert (Ny : 0 <= B2R (nmul Y Y)) by (rewrite EY, <- rnd_0; apply rnd_mono; apply Rle_0_sqr).
  destruct (plus_val 503 _ _ ltac:(lia) Fxx Fyy) as (E & B).
  { change 503%Z with (502 + 1)%Z. rewrite bpow_plus. change (bpow radix2 1) with 2. revert Bxx Byy. unfold Rabs; repeat destruct Rcase_abs; lra. }
  apply (sqrt_ge _ 503); auto; [lia|]. rewrite E. apply rnd_bpow; [lia|].
  assert (HX : bpow radix2 e <= Rabs (B2R X)) by (rewrite Ex; apply rnd_bpow_abs; [lia|]; eapply Rle_trans; [exact H|apply Rle_abs]).
  pose proof (square_ge X e ltac:(lia) HX) as S. apply (rnd_bpow_ge (e + e) _ ltac:(lia)) in S. rewrite <- EX in S.
  replace (2 * e)%Z with (e + e)%Z by lia. lra.
Qed.

Lemma default_wide (t : tree2d (T:=b64)) tol b (u v : pt) :
  bb_dist t = bbox_distances (bb_coords (celltree_data t)) ->
  (forall b, In b (bb_coords (celltree_data t)) -> bounded 250 (xmin b) /\ bounded 250 (xmax b) /\ bounded 250 (ymin b) /\ bounded 250 (ymax b)) ->
  get_tolerance t None = Ok tol -> In b (bb_coords (celltree_data t)) ->
  B2R (xmin b) <= px u <= B2R (xmax b) -> B2R (xmin b) <= px v <= B2R (xmax b) -> wide_enough (B2R tol) u v.
Proof.
  intros Hd HB Et Hin Hu Hv.
  destruct (tolerance_facts t None tol Hd HB Et I) as (_ & Pt).
  unfold wide_enough. set (m := Rmin _ _).
  destruct (Rle_lt_dec m (bpow radix2 (-55))) as [Hm|Hm].
  - eapply Rle_trans; [|exact Pt]. change (-100)%Z with (-45 + -55)%Z. rewrite bpow_plus. apply Rmult_le_compat_l; [apply bpow_ge_0|exact Hm].
  - destruct (HB b Hin) as (B1 & B2 & B3 & B4).
    assert (Ho : m <= B2R (xmax b) - B2R (xmin b)).
    { apply Rle_trans with (Rabs (px v - px u)); [apply Rmin_l|]. unfold Rabs. destruct Rcase_abs; lra. }
    assert (Hx : m <= bpow radix2 251).
    { eapply Rle_trans; [exact Ho|]. change 251%Z with (250 + 1)%Z. rewrite bpow_plus. change (bpow radix2 1) with 2.
      destruct B1 as (_ & C1), B2 as (_ & C2). apply Rabs_le_inv in C1, C2. lra. }
    destruct (octave m (-55) 251 ltac:(lia) (conj (Rlt_le _ _ Hm) Hx)) as (e & He & E1 & E2).
    pose proof (diagonal_ge e b ltac:(lia) B1 B2 B3 B4 ltac:(lra)) as HD.
    cbn [get_tolerance] in Et. unfold default_tolerance in Et. rewrite Hd in Et. apply bind_ok in Et as (mx & Em & Et). apply Ok_inj in Et.
    assert (HF : Forall (bounded 252) (map snd (bbox_distances (bb_coords (celltree_data t))))).
    { apply Forall_forall. intros x X. apply in_map_iff in X as (y & <- & Hy). unfold bbox_distances in Hy.
      apply in_map_iff in Hy as (b' & <- & Hin'). destruct (HB b' Hin') as (C1 & C2 & C3 & C4). apply (diagonal_bounds 250); auto. lia. }
    destruct (py_max_bounds _ _ _ HF Em) as (Bm & Gm).
    assert (Gb : B2R (snd (bbox_distance b)) <= B2R mx) by (apply Gm; apply in_map_iff; exists (bbox_distance b); split; [reflexivity|]; apply in_map; exact Hin).
    destruct tolfac_ge as (FT & PT). destruct tolfac_small as (_ & ST).
    destruct (mult_val 213 ntolfac mx ltac:(lia) FT (proj1 Bm)) as (EP & BP).
    { rewrite Rabs_mult. change 213%Z with (-39 + 252)%Z. rewrite bpow_plus. apply Rmult_le_compat; try apply Rabs_pos; [exact ST|apply Bm]. }
    destruct mintol_pos as (F0 & P0). subst tol. eapply Rle_trans; [|apply nmax_ge_r; [exact F0|apply BP]]. rewrite EP.
    apply Rle_trans with (bpow radix2 (-40 + e)).
    + apply Rle_trans with (bpow radix2 (-45) * bpow radix2 (e + 1)); [apply Rmult_le_compat_l; [apply bpow_ge_0|lra]|]. rewrite <- bpow_plus. apply bpow_le. lia.
    + apply rnd_bpow_ge; [lia|]. rewrite bpow_plus. apply Rmult_le_compat; try apply bpow_ge_0; [exact PT|lra].
Qed.

(** the tolerance that is used, for the default or a tolerance given by the caller *)
Definition wide_tolerance (tolerance : option b64) (u v : pt) : Prop := match tolerance with None => True | Some x => wide_enough (B2R x) u v end.

Lemma on_segment_range u v q : on_segment u v q -> between (px u) (px v) (px q) /\ between (py u) (py v) (py q).
Proof.
  intros (s & Hs & ->). unfold at_. cbn [px py].
  assert (BT : forall a b, between a b (a + s * (b - a))).
  { intros a b. unfold between. destruct (Rle_lt_dec a b) as [H|H].
    - rewrite Rmin_left, Rmax_right by lra. assert (0 <= s * (b - a)) by (apply Rmult_le_pos; lra). assert (0 <= (1 - s) * (b - a)) by (apply Rmult_le_pos; lra). lra.
    - rewrite Rmin_right, Rmax_left by lra. assert (0 <= s * (a - b)) by (apply Rmult_le_pos; lra). assert (0 <= (1 - s) * (a - b)) by (apply Rmult_le_pos; lra). lra. }
  split; apply BT.
Qed.
Lemma on_segment_back u v q : on_segment u v q -> on_segment v u q.
Proof. intros (s & Hs & ->). exists (1 - s). split; [lra|]. unfold at_. f_equal; ring. Qed.
Lemma between_range a b x lo hi : between a b x -> lo <= a <= hi -> lo <= b <= hi -> lo <= x <= hi.
Proof. unfold between, Rmin, Rmax. destruct (Rle_dec a b); lra. Qed.
Lemma segment_bpt (p u v : point b64) : finite_point p -> bpt 240 u -> bpt 240 v -> on_segment (rp u) (rp v) (rp p) -> bpt 240 p.
Proof.
  intros (F1 & F2) ((_ & U1) & (_ & U2)) ((_ & V1) & (_ & V2)) H. apply on_segment_range in H as (H1 & H2).
  split; (split; [assumption|]); apply Rabs_le; apply Rabs_le_inv in U1, U2, V1, V2;
    [eapply (between_range (B2R (px u)) (B2R (px v))); [exact H1| |]|eapply (between_range (B2R (py u)) (B2R (py v))); [exact H2| |]]; assumption.
Qed.

(** ** The theorems *)
(** every point on a side of a face is assigned a face, whatever the shapes of the faces and the directions of the sides *)
Theorem C86_mesh_sides g (vs : list (point b64)) faces fill nb cpl t :
  mesh_ok vs faces fill -> bounded_vertices 240 vs -> CellTree2d_init g vs faces fill nb cpl = Ok t ->
  forall g' points tolerance, tolerance_ok tolerance -> exists js,
    CellTree2d_locate_points g' t points tolerance = Ok js /\ length js = length points
    /\ forall i p j, nth_error points i = Some p -> nth_error js i = Some j -> finite_point p ->
       forall j' poly u v, face_poly (map rp vs) faces fill j' poly -> In (u, v) (poly_edges poly) -> long_side u v ->
         wide_tolerance tolerance u v -> on_segment u v (rp p) -> j <> (-1)%Z.
Proof.
  intros Hm Hbd E g' points tolerance Ht. pose proof (init_built _ _ _ _ _ _ _ Hm E) as Hb.
  destruct (points_result _ _ _ _ t tolerance Hb) as (tol & Et & H). destruct (H points) as (js & Hj & HF).
  exists js. split; auto. split; [symmetry; eapply F2_length; eauto|].
  assert (HB : forall b, In b (bb_coords (celltree_data t)) -> bounded 250 (xmin b) /\ bounded 250 (xmax b) /\ bounded 250 (ymin b) /\ bounded 250 (ymax b)).
  { intros b Hin. apply In_nth_error in Hin as (n & En).
    destruct (Forall2_nth_r _ _ _ _ _ (mt_boxes _ (bt_mesh _ _ _ _ _ Hb)) En) as (f & _ & poly & Hp & HT).
    rewrite (bt_vertices _ _ _ _ _ Hb) in Hp. eapply tight_bounded; [|exact HT]. eapply poly_of_bounded; eauto. apply (bounded_vertices_mono 240); [lia|exact Hbd]. }
  destruct (tolerance_facts t tolerance tol (bt_dist _ _ _ _ _ Hb) HB Et Ht) as (Bt & Pt0).
  intros i p j Ep Ej Fp j' poly u v Hpoly Hin Hl Hw Ho ->.
  pose proof (Forall2_nth _ _ _ _ _ _ HF Ep Ej) as A. destruct A as [(f & w & H0 & _)|(_ & Hn)]; [lia|].
  destruct (stored_float 240 _ _ _ _ _ _ _ Hb Hbd Hpoly) as (f' & poly' & b & H0 & En & Eb & Hp' & Hb' & Hor & HT).
  (* the side of the stored polygon *)
  assert (HS : exists u' v', In (u', v') (poly_edges (map rp poly')) /\ long_side u' v' /\ wide_tolerance tolerance u' v' /\ on_segment u' v' (rp p)).
  { destruct Hor as [->| ->]; [exists u, v; auto|]. exists v, u. split; [apply edges_rev_in; rewrite rev_involutive; exact Hin|].
    split; [unfold long_side in *; rewrite !(Rabs_minus_sym _ (px v)), !(Rabs_minus_sym _ (py v)); exact Hl|]. split; [|now apply on_segment_back].
    destruct tolerance; [|exact I]. cbn in *. unfold wide_enough in *. rewrite !(Rabs_minus_sym _ (px v)), !(Rabs_minus_sym _ (py v)). exact Hw. }
  clear u v Hin Hl Hw Ho. destruct HS as (u & v & Hin & Hl & Hw & Ho).
  destruct (edges_in _ _ _ Hin) as (Iu & Iv). apply in_map_iff in Iu as (wu & <- & Iu). apply in_map_iff in Iv as (wv & <- & Iv).
  pose proof Hb' as HB'. rewrite Forall_forall in HB'.
  pose proof (segment_bpt p wu wv Fp (HB' _ Iu) (HB' _ Iv) Ho) as Bp.
  assert (HC : forall w, In w poly' -> (B2R (xmin b) <= B2R (px w) <= B2R (xmax b)) /\ (B2R (ymin b) <= B2R (py w) <= B2R (ymax b))).
  { intros w Hw'. destruct HT as (HC & _). rewrite Forall_forall in HC. destruct (HC w Hw') as (C1 & C2 & C3 & C4).
    destruct (HB b (nth_error_In _ _ Eb)) as ((G1 & _) & (G2 & _) & (G3 & _) & (G4 & _)). destruct (HB' _ Hw') as ((W1 & _) & (W2 & _)).
    rewrite nleb_B in C1, C2, C3, C4 by assumption. revert C1 C2 C3 C4. repeat (case Rle_bool_spec; intros ?); intros; try discriminate. lra. }
  apply (Hn j').
  - exists f', poly'. split; auto. split; auto. rewrite (bt_vertices _ _ _ _ _ Hb). split; auto.
    apply side_polygon; auto. exists (rp wu), (rp wv). split; auto. split; auto. split; auto.
    destruct tolerance as [x|].
    + cbn [get_tolerance] in Et. apply Ok_inj in Et. subst tol. exact Hw.
    + apply (default_wide t tol b); auto; [apply (bt_dist _ _ _ _ _ Hb)|eapply nth_error_In; eauto|apply HC; auto|apply HC; auto].
  - exists b. split; auto. split; auto. apply on_segment_range in Ho as (O1 & O2). destruct (HC _ Iu) as (U1 & U2), (HC _ Iv) as (V1 & V2).
    pose proof (between_range _ _ _ _ _ O1 U1 V1) as R1. pose proof (between_range _ _ _ _ _ O2 U2 V2) as R2.
    destruct (HB b (nth_error_In _ _ Eb)) as ((G1 & _) & (G2 & _) & (G3 & _) & (G4 & _)). destruct Fp as (W1 & W2).
    unfold in_closed_box. rewrite !nleb_B by assumption. repeat split; apply Rle_bool_true; first [apply R1|apply R2].
Qed.

Lemma widened_range (tol a b lo hi : b64) : bounded 249 a -> bounded 249 b -> bounded 249 tol -> 0 <= B2R tol ->
  smallest lo (nsub a tol) (nsub b tol) -> largest hi (nadd a tol) (nadd b tol) ->
  is_finite lo = true /\ is_finite hi = true /\ B2R lo <= B2R a <= B2R hi /\ B2R lo <= B2R b <= B2R hi.
Proof.
  intros Ba Bb Bt Pt HL HH. destruct (widened_side 249 tol a b lo hi ltac:(lia) Ba Bb Bt HL HH) as ((F1 & _) & (F2 & _) & L1 & L2 & H1 & H2).
  assert (R : forall z : b64, rnd (B2R z - B2R tol) <= B2R z /\ B2R z <= rnd (B2R z + B2R tol)).
  { intros z. pose proof (rnd_B z) as Ez. split; rewrite <- Ez at 2; [|rewrite <- Ez at 1]; apply rnd_mono; lra. }
  destruct (R a), (R b). split; auto. split; auto. lra.
Qed.

(** every point on an edge of a network is assigned an edge *)
Theorem C86_network_edges g (vs : list (point b64)) edges nb cpl t :
  network_ok vs edges -> bounded_vertices 240 vs -> EdgeCellTree2d_init g vs edges nb cpl = Ok t ->
  forall g' points tolerance, tolerance_ok tolerance -> exists js,
    EdgeCellTree2d_locate_points g' t points tolerance = Ok js /\ length js = length points
    /\ forall i p j, nth_error points i = Some p -> nth_error js i = Some j -> finite_point p ->
       forall j' u v, edge_ends (map rp vs) edges j' u v -> long_side u v -> wide_tolerance tolerance u v -> on_segment u v (rp p) -> j <> (-1)%Z.
Proof.
  intros Hm Hbd E g' points tolerance Ht. pose proof (init_built_edges _ _ _ _ _ _ Hm E) as Hb.
  destruct (edge_points_result _ _ _ t tolerance Hb) as (tol & Et & H). destruct (H points) as (js & Hj & HF).
  exists js. split; auto. split; [symmetry; eapply F2_length; eauto|].
  pose proof (bounded_vertices_mono 240 249 _ ltac:(lia) Hbd) as Hbd'.
  destruct (be_net _ _ _ _ Hb) as (gt & Hgt & Hnet). destruct (tol_facts 249 vs gt ltac:(lia) Hbd' Hgt) as (Bg & Pg & _).
  assert (HB : forall b, In b (bb_coords (celltree_data t)) -> bounded 250 (xmin b) /\ bounded 250 (xmax b) /\ bounded 250 (ymin b) /\ bounded 250 (ymax b)).
  { intros b Hin. apply In_nth_error in Hin as (n & En).
    destruct (Forall2_nth_r _ _ _ _ _ (nt_boxes _ _ Hnet) En) as (e & _ & x0 & x1 & He & (X0 & X1 & Y0 & Y1)).
    rewrite (be_vertices _ _ _ _ Hb) in He. destruct (edge_of_bpt 249 _ _ _ _ Hbd' He) as ((P1 & P2) & (Q1 & Q2)).
    destruct (widened_side 249 gt _ _ _ _ ltac:(lia) P1 Q1 Bg X0 X1) as (A1 & A2 & _).
    destruct (widened_side 249 gt _ _ _ _ ltac:(lia) P2 Q2 Bg Y0 Y1) as (A3 & A4 & _). auto. }
  destruct (tolerance_facts t tolerance tol (be_dist _ _ _ _ Hb) HB Et Ht) as (Bt & Pt0).
  intros i p j Ep Ej Fp j' u v Hends Hl Hw Ho ->.
  pose proof (Forall2_nth _ _ _ _ _ _ HF Ep Ej) as A. destruct A as [(e & x0 & x1 & H0 & _)|(_ & Hn)]; [lia|].
  destruct Hends as (e & H0 & En & He). destruct (edge_of_map_inv _ _ _ _ He) as (w0 & w1 & He' & -> & ->).
  destruct (edge_of_bpt 240 _ _ _ _ Hbd He') as (B0 & B1). destruct (edge_of_bpt 249 _ _ _ _ Hbd' He') as ((P1 & P2) & (Q1 & Q2)).
  pose proof (segment_bpt p w0 w1 Fp B0 B1 Ho) as Bp.
  pose proof En as En'. rewrite <- (be_elements _ _ _ _ Hb) in En'.
  destruct (Forall2_nth_l _ _ _ _ _ (nt_boxes _ _ Hnet) En') as (b & Eb & x0 & x1 & He2 & (X0 & X1 & Y0 & Y1)).
  rewrite (be_vertices _ _ _ _ Hb) in He2. destruct (edge_of_unique _ _ _ _ _ _ He' He2) as (-> & ->).
  destruct (widened_range gt _ _ _ _ P1 Q1 Bg Pg X0 X1) as (G1 & G2 & U1 & V1).
  destruct (widened_range gt _ _ _ _ P2 Q2 Bg Pg Y0 Y1) as (G3 & G4 & U2 & V2).
  apply (Hn j').
  - exists e, w0, w1. split; auto. rewrite (be_elements _ _ _ _ Hb), (be_vertices _ _ _ _ Hb). split; auto. split; auto.
    apply found_on_edge; auto. destruct tolerance as [x|].
    + cbn [get_tolerance] in Et. apply Ok_inj in Et. subst tol. exact Hw.
    + apply (default_wide t tol b); auto; [apply (be_dist _ _ _ _ Hb)|eapply nth_error_In; eauto].
  - exists b. split; auto. split; auto. apply on_segment_range in Ho as (O1 & O2).
    pose proof (between_range _ _ _ _ _ O1 U1 V1) as R1. pose proof (between_range _ _ _ _ _ O2 U2 V2) as R2. destruct Fp as (W1 & W2).
    unfold in_closed_box. rewrite !nleb_B by assumption. repeat split; apply Rle_bool_true; first [apply R1|apply R2].
Qed.

(** ** A tolerance in proportion to the extent of the side is needed *)
(** 2^-52 *)
Definition tiny : b64 := B754_finite (prec:=prec) (emax:=emax) false 4503599627370496 (-104) eq_refl.
Lemma tiny_val : B2R tiny = bpow radix2 (-52).
Proof. unfold tiny, B2R, F2R. cbn [cond_Zopp Fnum Fexp]. replace (-52)%Z with (52 + -104)%Z by lia. rewrite bpow_plus. f_equal. Qed.
Definition far_pts : list (Z * Z) := [(-9007199254740992, 0); (10, 3002399751580334)]%Z.
Definition far_vertices : list (point b64) := map ptZ far_pts.
Definition on_far : point b64 := ptZ (1, 3002399751580331)%Z.
Lemma far_missed g g' : match EdgeCellTree2d_init g far_vertices [[0; 1]%Z] 4 2 with
  | Ok t => match EdgeCellTree2d_locate_points g' t [on_far] (Some tiny), EdgeCellTree2d_locate_points g' t [on_far] None with
            | Ok [a], Ok [b] => Some (a, b) | _, _ => None end | Err e => None end = Some (-1, 0)%Z.
Proof. vm_compute. reflexivity. Qed.
(** a point exactly on the only edge is not found with tolerance 2^-52, although its distance is 0; it is found with the default *)
Theorem C86_narrow_refuted : exists vs : list (point b64), network_ok vs [[0; 1]%Z] /\ bounded_vertices 240 vs
  /\ exists p tol, finite_point p /\ tolerance_ok (Some tol)
  /\ (exists u v, edge_ends (map rp vs) [[0; 1]%Z] 0 u v /\ long_side u v /\ on_segment u v (rp p))
  /\ forall g g', exists t, EdgeCellTree2d_init g vs [[0; 1]%Z] 4 2 = Ok t
       /\ EdgeCellTree2d_locate_points g' t [p] (Some tol) = Ok [-1]%Z /\ EdgeCellTree2d_locate_points g' t [p] None = Ok [0]%Z.
Proof.
  exists far_vertices.
  assert (Bd : bounded_vertices 240 far_vertices) by (apply (bounded_vertices_mono 53); [lia|]; apply zbounded; [lia|vm_compute; reflexivity]).
  pose proof Bd as Bd'. unfold bounded_vertices in Bd'. rewrite Forall_forall in Bd'.
  split; [|split; [exact Bd|]].
  - constructor; [|discriminate|constructor; [exists 0%Z, 1%Z; cbn; repeat split; lia|constructor]|].
    + apply Forall_forall. intros v Hv. destruct (Bd' v Hv) as ((F1 & _) & (F2 & _)). now split.
    + intros tol. apply moderate_room. apply Forall_forall. intros v Hv. destruct (Bd' v Hv) as (F1 & F2).
      split; (eapply bounded_mono; [|eassumption]); lia.
  - exists on_far, tiny. split; [split; reflexivity|].
    split; [split; [split; [reflexivity|]|]; rewrite tiny_val; [rewrite Rabs_pos_eq by apply bpow_ge_0|]; apply bpow_le; lia|]. split.
    + exists (ptZ (-9007199254740992, 0)%Z), (ptZ (10, 3002399751580334)%Z).
      split; [|split].
      * unfold far_vertices. rewrite rp_ptZ by (vm_compute; reflexivity). exists [0; 1]%Z. split; [lia|]. split; [reflexivity|].
        exists 0%Z, 1%Z. repeat split; try lia; reflexivity.
      * left. unfold ptZ. cbn [px fst nofZ NumR]. rewrite <- minus_IZR, <- abs_IZR. apply Rle_trans with 1; [change 1 with (bpow radix2 0); apply bpow_le; lia|]. apply IZR_le. vm_compute. discriminate.
      * assert (E : rp on_far = ptZ (1, 3002399751580331)%Z).
        { unfold on_far, rp, ptZ. cbn [px py fst snd nofZ NumB64 NumR].
          destruct (Zb_exact 1 ltac:(lia)) as (_ & ->), (Zb_exact 3002399751580331 ltac:(lia)) as (_ & ->). reflexivity. }
        rewrite E. exists (9007199254740993 / 9007199254741002). split; [lra|]. unfold at_, ptZ. cbn [px py fst snd nofZ NumR]. f_equal; field.
    + intros g g'. pose proof (far_missed g g') as H. destruct (EdgeCellTree2d_init g _ _ _ _) as [t|e]; [|discriminate]. exists t. split; auto.
      destruct (EdgeCellTree2d_locate_points g' t [on_far] (Some tiny)) as [[|a [|]]|]; try discriminate.
      destruct (EdgeCellTree2d_locate_points g' t [on_far] None) as [[|b [|]]|]; try discriminate. apply some_inj in H.
      assert (a = (-1)%Z) by (apply (f_equal fst) in H; exact H). assert (b = 0%Z) by (apply (f_equal snd) in H; exact H). subst. auto.
Qed.

(** ** Concrete cases: two triangles with a common oblique side, and the pipes *)
Definition tri_faces : list (list Z) := [[0; 3; 8]; [3; 11; 8]]%Z.
Lemma tri_mesh_B : mesh_ok (T:=b64) grid tri_faces (-1).
Proof. constructor; [apply (mo_vertices _ _ _ grid_mesh_B64)|discriminate|]. repeat constructor; cbn; try lia. Qed.
Lemma tri_tree_B : exists t, CellTree2d_init (T:=b64) g0 grid tri_faces (-1) 4 2 = Ok t.
Proof.
  assert (H : match CellTree2d_init (T:=b64) g0 grid tri_faces (-1) 4 2 with Ok _ => true | Err _ => false end = true) by (vm_compute; reflexivity).
  destruct (CellTree2d_init _ _ _ _ _ _) as [t|e]; [now exists t|discriminate].
Qed.
Lemma long_ptZ a b c d : (a <> c)%Z -> long_side (ptZ (a, b)) (ptZ (c, d)).
Proof.
  intros H. left. unfold ptZ. cbn [px fst nofZ NumR]. rewrite <- minus_IZR, <- abs_IZR.
  apply Rle_trans with 1; [change 1 with (bpow radix2 0); apply bpow_le; lia|]. apply IZR_le. lia.
Qed.

(** every double on the segment from (3, 0) to (0, 2) gets a triangle; every double on the pipe from (2, 2) to (3, 0) gets a pipe *)
Theorem C86_example :
  (exists t, CellTree2d_init (T:=b64) g0 grid tri_faces (-1) 4 2 = Ok t
     /\ forall points, exists js, CellTree2d_locate_points g0 t points None = Ok js
        /\ forall i p j, nth_error points i = Some p -> nth_error js i = Some j -> finite_point p ->
             on_segment (ptZ (3, 0)%Z) (ptZ (0, 2)%Z) (rp p) -> j <> (-1)%Z)
  /\ (exists t, EdgeCellTree2d_init (T:=b64) g0 grid pipes 4 2 = Ok t
     /\ forall points, exists js, EdgeCellTree2d_locate_points g0 t points None = Ok js
        /\ forall i p j, nth_error points i = Some p -> nth_error js i = Some j -> finite_point p ->
             on_segment (ptZ (2, 2)%Z) (ptZ (3, 0)%Z) (rp p) -> j <> (-1)%Z).
Proof.
  assert (BG : bounded_vertices 240 (@grid b64 _)) by (apply (bounded_vertices_mono 3); [lia|]; apply zbounded; [lia|vm_compute; reflexivity]).
  split.
  - destruct tri_tree_B as (t & E). exists t. split; [exact E|]. intros points.
    destruct (C86_mesh_sides g0 grid tri_faces (-1) 4 2 t tri_mesh_B BG E g0 points None I) as (js & Ej & _ & K). exists js. split; [exact Ej|].
    intros i p j Ep Eji Fp Ho.
    apply (K i p j Ep Eji Fp 0%Z [ptZ (0, 0); ptZ (3, 0); ptZ (0, 2)]%Z (ptZ (3, 0)%Z) (ptZ (0, 2)%Z)); auto; [| |apply long_ptZ; lia|exact I].
    + rewrite grid_rp. exists [0; 3; 8]%Z. split; [lia|]. split; [reflexivity|]. unfold poly_of. cbn. repeat constructor; auto; lia.
    + cbn. auto.
  - destruct pipes_built_B64 as (t & E & _). exists t. split; [exact E|]. intros points.
    destruct (C86_network_edges g0 grid pipes 4 2 t pipes_network_B64 BG E g0 points None I) as (js & Ej & _ & K). exists js. split; [exact Ej|].
    intros i p j Ep Eji Fp Ho. apply (K i p j Ep Eji Fp 4%Z (ptZ (2, 2)%Z) (ptZ (3, 0)%Z)); auto; [|apply long_ptZ; lia|exact I].
    rewrite grid_rp. exists [10; 3]%Z. split; [lia|]. split; [reflexivity|]. exists 10%Z, 3%Z. repeat split; try lia; reflexivity.
Qed.

Print Assumptions C86_mesh_sides.
Print Assumptions C86_network_edges.
Print Assumptions C86_narrow_refuted.
Print Assumptions C86_example.
