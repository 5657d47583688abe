(** One clipping step by an axis-parallel side, in binary64. *)
From Coq Require Import Reals Lra Psatz.
From Flocq Require Import IEEE754.BinarySingleNaN Core.
From Verif Require Import RBase NumB64 NumRoom FBase FBuild MGeometry MAlgorithms FPoint FCut
  SpecPoly GTriangle GConvex GClip GMeasure GClose PClip PClipRun.
Open Scope R_scope.

(** a clipping side parallel to an axis, not too short; if it is shorter than
    one its line does not come within 2^-500 of the axis it is parallel to *)
Definition axis_side (r s : pt) : Prop :=
  (py s = py r /\ bpow radix2 (-250) <= Rabs (px s - px r) /\ (1 <= Rabs (px s - px r) \/ bpow radix2 (-500) <= Rabs (py r)))
  \/ (px s = px r /\ bpow radix2 (-250) <= Rabs (py s - py r) /\ (1 <= Rabs (py s - py r) \/ bpow radix2 (-500) <= Rabs (px r))).

Section Axis.
  Local Notation bounded := NumRoom.bounded.
  Variable k : Z.
  Hypothesis Hk : (-251 <= k <= 400)%Z.
  Let M := bpow radix2 k.
  Let m := uro * M.
  Notation bpt := (bpt k).

  (** *** One factor large, or the other away from zero *)
  Lemma no_underflow (s r p c : b64) : bounded k s -> bounded k r -> bounded k p -> bounded k c ->
    bpow radix2 (-250) <= Rabs (B2R s - B2R r) -> (1 <= Rabs (B2R s - B2R r) \/ bpow radix2 (-500) <= Rabs (B2R c)) ->
    B2R p <> B2R c -> bpow radix2 (-1074) <= Rabs (rnd (B2R s - B2R r) * rnd (B2R p - B2R c)).
  Proof.
    intros Bs Br Bp Bc H1 H2 Hn. rewrite Rabs_mult. pose proof uro_small as Su. pose proof uro_pos.
    assert (R1 : forall x y : b64, bounded k x -> bounded k y -> Rabs (B2R x - B2R y) * / 2 <= Rabs (rnd (B2R x - B2R y))).
    { intros x y _ _. destruct (rnd_minus x y) as (e & He & ->). rewrite Rabs_mult. apply Rmult_le_compat_l; [apply Rabs_pos|].
      apply Rabs_le_iff in He. rewrite Rabs_pos_eq; lra. }
    destruct H2 as [H2|H2].
    - assert (G : 1 <= Rabs (rnd (B2R s - B2R r))).
      { destruct (Zb_exact 1 ltac:(cbv; discriminate)) as (_ & E1). destruct (Zb_exact (-1) ltac:(cbv; discriminate)) as (_ & E2).
        destruct (Rle_or_lt 0 (B2R s - B2R r)) as [P|P].
        - rewrite Rabs_pos_eq in H2 by lra. pose proof (rnd_ge (B2R s - B2R r) (Zb 1)) as G. rewrite E1 in G. specialize (G H2).
          rewrite Rabs_pos_eq; lra.
        - rewrite Rabs_left in H2 by lra. pose proof (rnd_le (B2R s - B2R r) (Zb (-1))) as G. rewrite E2 in G.
          rewrite Rabs_left; lra. }
      rewrite <- (Rmult_1_l (bpow radix2 (-1074))). apply Rmult_le_compat; auto; [lra|apply bpow_ge_0|].
      apply rnd_abs_tiny. apply float_nonzero; auto; [apply Bp|apply Bc].
    - pose proof (float_gap p c (-500) ltac:(lia) H2 Hn) as G.
      apply Rle_trans with ((bpow radix2 (-250) * / 2) * (bpow radix2 (-500 - 53) * / 2)).
      + change (/ 2) with (bpow radix2 (-1)). rewrite <- !bpow_plus. apply bpow_le. lia.
      + pose proof (bpow_gt_0 radix2 (-250)). pose proof (bpow_gt_0 radix2 (-500 - 53)).
        pose proof (R1 s r Bs Br). pose proof (R1 p c Bp Bc). apply Rmult_le_compat; lra.
  Qed.

  (** the sign of the rounded product is the sign of the product *)
  Lemma prod_sign (s r p c : b64) : bounded k s -> bounded k r -> bounded k p -> bounded k c ->
    bpow radix2 (-250) <= Rabs (B2R s - B2R r) -> (1 <= Rabs (B2R s - B2R r) \/ bpow radix2 (-500) <= Rabs (B2R c)) ->
    let z := rnd (rnd (B2R s - B2R r) * rnd (B2R p - B2R c)) in let x := (B2R s - B2R r) * (B2R p - B2R c) in
    (0 < x -> 0 < z) /\ (x < 0 -> z < 0) /\ (x = 0 -> z = 0).
  Proof.
    intros Bs Br Bp Bc H1 H2. cbn zeta.
    assert (Hs0 : B2R s - B2R r <> 0) by (intros E; rewrite E, Rabs_R0 in H1; pose proof (bpow_gt_0 radix2 (-250)); lra).
    pose proof (no_underflow s r p c Bs Br Bp Bc H1 H2) as NU.
    set (X := B2R s - B2R r) in *. set (Y := B2R p - B2R c) in *.
    assert (SX : (0 <= X -> 0 <= rnd X) /\ (X <= 0 -> rnd X <= 0)) by (split; intros; rewrite <- rnd_0; now apply rnd_mono).
    assert (SY : (0 <= Y -> 0 <= rnd Y) /\ (Y <= 0 -> rnd Y <= 0)) by (split; intros; rewrite <- rnd_0; now apply rnd_mono).
    pose proof (bpow_gt_0 radix2 (-1074)) as P.
    assert (NZ : Y <> 0 -> rnd X * rnd Y <> 0 /\ rnd (rnd X * rnd Y) <> 0).
    { intros HY. assert (G : bpow radix2 (-1074) <= Rabs (rnd X * rnd Y)) by (apply NU; unfold Y in HY; lra).
      split; [intros E; rewrite E, Rabs_R0 in G; lra|]. apply rnd_abs_tiny in G. intros E. rewrite E, Rabs_R0 in G. lra. }
    assert (SZ : forall z, (0 <= z -> 0 <= rnd z) /\ (z <= 0 -> rnd z <= 0)) by (intros z; split; intros; rewrite <- rnd_0; now apply rnd_mono).
    split; [|split].
    - intros Hx. assert (HY : Y <> 0) by (intros E; rewrite E, Rmult_0_r in Hx; lra). destruct (NZ HY) as (N1 & N2).
      assert (G : 0 <= rnd X * rnd Y).
      { destruct (Rle_or_lt 0 X) as [PX|PX].
        - assert (0 <= Y) by (destruct (Rle_or_lt 0 Y); auto; assert (X * - Y >= 0) by (apply Rle_ge, Rmult_le_pos; lra); lra). apply Rmult_le_pos; [now apply SX|now apply SY].
        - assert (Y <= 0) by (destruct (Rle_or_lt Y 0); auto; assert (- X * Y >= 0) by (apply Rle_ge, Rmult_le_pos; lra); lra).
          replace (rnd X * rnd Y) with ((- rnd X) * (- rnd Y)) by ring. destruct SX as (_ & SX). destruct SY as (_ & SY).
          specialize (SX ltac:(lra)). specialize (SY ltac:(lra)). apply Rmult_le_pos; lra. }
      apply SZ in G. lra.
    - intros Hx. assert (HY : Y <> 0) by (intros E; rewrite E, Rmult_0_r in Hx; lra). destruct (NZ HY) as (N1 & N2).
      assert (G : rnd X * rnd Y <= 0).
      { destruct (Rle_or_lt 0 X) as [PX|PX].
        - assert (Y <= 0) by (destruct (Rle_or_lt Y 0); auto; assert (X * Y >= 0) by (apply Rle_ge, Rmult_le_pos; lra); lra).
          destruct SX as (SX & _). destruct SY as (_ & SY). specialize (SX ltac:(lra)). specialize (SY ltac:(lra)).
          pose proof (Rmult_le_pos (rnd X) (- rnd Y) SX ltac:(lra)). lra.
        - assert (0 <= Y) by (destruct (Rle_or_lt 0 Y); auto; assert (- X * - Y >= 0) by (apply Rle_ge, Rmult_le_pos; lra); lra).
          destruct SX as (_ & SX). destruct SY as (SY & _). specialize (SX ltac:(lra)). specialize (SY ltac:(lra)).
          pose proof (Rmult_le_pos (- rnd X) (rnd Y) ltac:(lra) SY). lra. }
      apply SZ in G. lra.
    - intros Hx. apply Rmult_integral in Hx as [Hx|Hx]; [contradiction|]. rewrite Hx, rnd_0, Rmult_0_r, rnd_0. reflexivity.
  Qed.

  (** products with a zero factor and exact sums *)
  Lemma diff_zero_val (x y : b64) : bounded k x -> bounded k y -> B2R x = B2R y -> is_finite (nsub x y) = true /\ B2R (nsub x y) = 0.
  Proof.
    intros Hx Hy E. destruct (diff_val k Hk x y Hx Hy) as (B & E1 & _). split; [apply B|]. rewrite E1, E, Rminus_diag_eq by reflexivity. apply rnd_0.
  Qed.
  Lemma mul_zero_val (x y : b64) : is_finite x = true -> is_finite y = true -> B2R x = 0 ->
    is_finite (nmul x y) = true /\ B2R (nmul x y) = 0 /\ is_finite (nmul y x) = true /\ B2R (nmul y x) = 0.
  Proof.
    intros Fx Fy E.
    destruct (mult_val 0 x y) as (E1 & B1); [lia|auto|auto|rewrite E, Rmult_0_l, Rabs_R0; apply bpow_ge_0|].
    destruct (mult_val 0 y x) as (E2 & B2); [lia|auto|auto|rewrite E, Rmult_0_r, Rabs_R0; apply bpow_ge_0|].
    rewrite E, Rmult_0_l, rnd_0 in E1. rewrite E, Rmult_0_r, rnd_0 in E2. repeat split; auto; [apply B1|apply B2].
  Qed.
  Lemma add_zero_val (x y : b64) : is_finite x = true -> bounded (k + k + 4) y -> B2R x = 0 ->
    is_finite (nadd x y) = true /\ B2R (nadd x y) = B2R y /\ is_finite (nadd y x) = true /\ B2R (nadd y x) = B2R y.
  Proof.
    intros Fx (Fy & By) E.
    destruct (plus_val (k + k + 4) x y) as (E1 & B1); [lia|auto|auto|now rewrite E, Rplus_0_l|].
    destruct (plus_val (k + k + 4) y x) as (E2 & B2); [lia|auto|auto|now rewrite E, Rplus_0_r|].
    rewrite E, Rplus_0_l, rnd_float in E1. rewrite E, Rplus_0_r, rnd_float in E2. repeat split; auto; [apply B1|apply B2].
  Qed.
  Lemma mul_val2 (x y : b64) : bounded (k + 1) x -> bounded (k + 1) y ->
    B2R (nmul x y) = rnd (B2R x * B2R y) /\ bounded (k + k + 4) (nmul x y).
  Proof.
    intros Bx By. apply mult_val; [lia|apply Bx|apply By|].
    apply Rle_trans with (bpow radix2 (k + 1) * bpow radix2 (k + 1)).
    - apply mul_abs; [apply Bx|apply By].
    - rewrite <- bpow_plus. apply bpow_le. lia.
  Qed.

  Lemma Rltb_ext x y x' y' : (x < y <-> x' < y') -> Rlt_bool x y = Rlt_bool x' y'.
  Proof. intros H. destruct (Rlt_bool_spec x y), (Rlt_bool_spec x' y'); auto; exfalso; [apply H in H0|apply H in H1]; lra. Qed.

  Section Side.
    Variables r s : point b64.
    Hypothesis (Br : bpt r) (Bs : bpt s).
    Hypothesis HA : axis_side (rp r) (rp s).
    Notation U := (Pt (nsub (px s) (px r)) (nsub (py s) (py r))).
    Notation N := (Pt (nopp (py U)) (px U)).
    Notation f := (orient (rp r) (rp s)).
    Definition slen : R := Rmax (Rabs (B2R (px s) - B2R (px r))) (Rabs (B2R (py s) - B2R (py r))).

    Lemma inside_exact p : bpt p -> inside p r U = ins (rp r) (rp s) (rp p).
    Proof.
      intros Bp. destruct Br as (Rx & Ry). destruct Bs as (Sx & Sy). destruct Bp as (Px & Py).
      unfold inside, ins. cbn [px py].
      destruct (diff_val k Hk (px s) (px r) Sx Rx) as (B1 & E1 & _). destruct (diff_val k Hk (py s) (py r) Sy Ry) as (B2 & E2 & _).
      destruct (diff_val k Hk (px p) (px r) Px Rx) as (B3 & E3 & _). destruct (diff_val k Hk (py p) (py r) Py Ry) as (B4 & E4 & _).
      destruct (mul_val2 (nsub (px s) (px r)) (nsub (py p) (py r)) B1 B4) as (E5 & B5).
      destruct (mul_val2 (nsub (py s) (py r)) (nsub (px p) (px r)) B2 B3) as (E6 & B6).
      rewrite nltb_B by (first [apply B5|apply B6]). apply Rltb_ext. rewrite E5, E6, E1, E2, E3, E4.
      unfold orient, rp; cbn [px py].
      destruct HA as [(HE & HL & HU)|(HE & HL & HU)]; unfold rp in HE, HL, HU; cbn [px py] in HE, HL, HU.
      - pose proof (prod_sign (px s) (px r) (py p) (py r) Sx Rx Py Ry HL HU) as PS. cbn zeta in PS.
        rewrite HE, (Rminus_diag_eq (B2R (py r))) by reflexivity. rewrite rnd_0, !Rmult_0_l, rnd_0.
        destruct (Rtotal_order ((B2R (px s) - B2R (px r)) * (B2R (py p) - B2R (py r))) 0) as [G|[G|G]];
          [pose proof (proj1 (proj2 PS) G)|pose proof (proj2 (proj2 PS) G)|pose proof (proj1 PS G)]; split; intros; lra.
      - pose proof (prod_sign (py s) (py r) (px p) (px r) Sy Ry Px Rx HL HU) as PS. cbn zeta in PS.
        rewrite HE, (Rminus_diag_eq (B2R (px r))) by reflexivity. rewrite rnd_0, !Rmult_0_l, rnd_0.
        destruct (Rtotal_order ((B2R (py s) - B2R (py r)) * (B2R (px p) - B2R (px r))) 0) as [G|[G|G]];
          [pose proof (proj1 (proj2 PS) G)|pose proof (proj2 (proj2 PS) G)|pose proof (proj1 PS G)]; split; intros; lra.
    Qed.

    Lemma rabs_half (x y : b64) : bpow radix2 (-250) <= Rabs (B2R x - B2R y) -> bpow radix2 (-251) <= Rabs (rnd (B2R x - B2R y)).
    Proof.
      intros H. pose proof uro_small. destruct (rnd_minus x y) as (e & He & ->). rewrite Rabs_mult.
      apply Rle_trans with (bpow radix2 (-250) * / 2); [change (/ 2) with (bpow radix2 (-1)); rewrite <- bpow_plus; apply bpow_le; lia|].
      apply Rmult_le_compat; auto; [apply bpow_ge_0|lra|]. apply Rabs_le_iff in He. rewrite Rabs_pos_eq; lra.
    Qed.

    (** where the line is crossed *)
    Lemma cut_ok a b : bpt a -> bpt b -> (f (rp a) <= 0 < f (rp b) \/ f (rp b) <= 0 < f (rp a)) ->
      exists x, intersection a (Pt (nsub (px b) (px a)) (nsub (py b) (py a))) r N = Ok (Some x)
        /\ is_finite (px x) = true /\ is_finite (py x) = true
        /\ closep (6 * m) (rp a) (rp b) (rp x) /\ Rabs (f (rp x)) <= slen * (18 * m).
    Proof.
      intros (Ax & Ay) (Bx & By) Hab. destruct Br as (Rx & Ry). destruct Bs as (Sx & Sy).
      pose proof (mp k) as Pm. fold M m in Pm.
      unfold intersection, dot_product. cbn [px py].
      destruct (diff_val k Hk (px s) (px r) Sx Rx) as (B1 & E1 & _). destruct (diff_val k Hk (py s) (py r) Sy Ry) as (B2 & E2 & _).
      destruct (diff_val k Hk (px r) (px a) Rx Ax) as (B3 & E3 & _). destruct (diff_val k Hk (py r) (py a) Ry Ay) as (B4 & E4 & _).
      destruct (diff_val k Hk (px b) (px a) Bx Ax) as (B5 & E5 & _). destruct (diff_val k Hk (py b) (py a) By Ay) as (B6 & E6 & _).
      set (ux := nsub (px s) (px r)) in *. set (uy := nsub (py s) (py r)) in *.
      set (wx := nsub (px r) (px a)) in *. set (wy := nsub (py r) (py a)) in *.
      set (vx := nsub (px b) (px a)) in *. set (vy := nsub (py b) (py a)) in *.
      assert (Bn : bounded (k + 1) (nopp uy)).
      { destruct B2 as (F & H). split; cbn; [now rewrite is_finite_Bopp|]. now rewrite B2R_Bopp, Rabs_Ropp. }
      assert (En : B2R (nopp uy) = - B2R uy) by (cbn; apply B2R_Bopp).
      destruct (mul_val2 (nopp uy) wx Bn B3) as (P1 & Q1). destruct (mul_val2 ux wy B1 B4) as (P2 & Q2).
      destruct (mul_val2 (nopp uy) vx Bn B5) as (P3 & Q3). destruct (mul_val2 ux vy B1 B6) as (P4 & Q4).
      set (nw := nadd (nmul (nopp uy) wx) (nmul ux wy)). set (nv := nadd (nmul (nopp uy) vx) (nmul ux vy)).
      (* the parameter, in both orientations *)
      assert (G : is_finite nw = true /\ is_finite nv = true /\ B2R nv <> 0 /\
        (is_finite nw = true -> is_finite nv = true -> B2R nv <> 0 ->
        ndiv nw nv = Ok (ndivraw nw nv) /\ is_finite (ndivraw nw nv) = true /\ 0 <= B2R (ndivraw nw nv) <= 1
        /\ (py (rp s) = py (rp r) /\ Rabs (B2R (py a) + B2R (ndivraw nw nv) * (B2R (py b) - B2R (py a)) - B2R (py r)) <= 12 * m
            \/ px (rp s) = px (rp r) /\ Rabs (B2R (px a) + B2R (ndivraw nw nv) * (B2R (px b) - B2R (px a)) - B2R (px r)) <= 12 * m))).
      { unfold f, rp, orient in Hab. cbn [px py] in Hab.
        destruct HA as [(HE & HL & HU)|(HE & HL & HU)]; unfold rp in HE, HL, HU; cbn [px py] in HE, HL, HU; rewrite HE in *.
        - (* horizontal *)
          rewrite !(Rminus_diag_eq (B2R (py r))), !Rmult_0_l, !Rminus_0_r in Hab by reflexivity.
          assert (Z : B2R (nopp uy) = 0) by (rewrite En, E2, Rminus_diag_eq by reflexivity; rewrite rnd_0; ring).
          destruct (mul_zero_val (nopp uy) wx (proj1 Bn) (proj1 B3) Z) as (F1 & Z1 & _).
          destruct (mul_zero_val (nopp uy) vx (proj1 Bn) (proj1 B5) Z) as (F3 & Z3 & _).
          destruct (add_zero_val _ _ F1 Q2 Z1) as (F5 & E7 & _). destruct (add_zero_val _ _ F3 Q4 Z3) as (F6 & E8 & _).
          fold nw in F5, E7. fold nv in F6, E8. rewrite P2, E4 in E7. rewrite P4, E6 in E8.
          split; auto. split; auto.
          set (S := B2R (px s) - B2R (px r)) in *. set (ya := B2R (py a)) in *. set (yb := B2R (py b)) in *. set (yr := B2R (py r)) in *.
          assert (Hord : (ya <= yr <= yb /\ (ya < yr \/ yr < yb) \/ yb <= yr <= ya /\ (yb < yr \/ yr < ya))).
          { assert (HS : S <> 0) by (intros E; rewrite E, Rabs_R0 in HL; pose proof (bpow_gt_0 radix2 (-250)); lra).
            destruct (Rlt_or_le 0 S) as [PS|PS].
            - assert (G : forall z, (S * z <= 0 -> z <= 0) /\ (0 < S * z -> 0 < z)).
              { intros z. split; intros Hz.
                - apply (Rmult_le_reg_l S); lra.
                - apply (Rmult_lt_reg_l S); lra. }
              destruct Hab as [(H1 & H2)|(H1 & H2)]; apply G in H1; apply G in H2; lra.
            - assert (G : forall z, (S * z <= 0 -> 0 <= z) /\ (0 < S * z -> z < 0)).
              { intros z. split; intros Hz.
                - apply (Rmult_le_reg_l (- S)); lra.
                - apply (Rmult_lt_reg_l (- S)); lra. }
              destruct Hab as [(H1 & H2)|(H1 & H2)]; apply G in H1; apply G in H2; lra. }
          assert (Nz : B2R nv <> 0).
          { rewrite E8, E1. fold S. destruct (Rlt_or_le (Rabs (ya - yr)) (Rabs (yb - yr))) as [Hl|Hl].
            - (* b is the further one *)
              assert (Nb : yb <> yr) by (intros E; rewrite E in Hl; replace (yr - yr) with 0 in Hl by ring; rewrite Rabs_R0 in Hl; pose proof (Rabs_pos (ya - yr)); lra).
              pose proof (no_underflow (px s) (px r) (py b) (py r) Sx Rx By Ry HL HU Nb) as NU. fold S yb yr in NU.
              assert (Mono : Rabs (rnd S * rnd (yb - yr)) <= Rabs (rnd S * rnd (yb - ya))).
              { rewrite !Rabs_mult. apply Rmult_le_compat_l; [apply Rabs_pos|].
                assert (A : 0 <= rnd (yb - yr) <= rnd (yb - ya) \/ rnd (yb - ya) <= rnd (yb - yr) <= 0).
                { destruct Hord as [((O1 & O2) & _)|((O1 & O2) & _)]; [left|right]; split; try (apply rnd_mono; lra); rewrite <- rnd_0; apply rnd_mono; lra. }
                destruct A as [A|A]; [rewrite !Rabs_pos_eq by lra; lra|rewrite !Rabs_left1 by lra; lra]. }
              assert (T0 : bpow radix2 (-1074) <= Rabs (rnd S * rnd (yb - ya))) by lra. apply rnd_abs_tiny in T0.
              intros E. rewrite E, Rabs_R0 in T0. pose proof (bpow_gt_0 radix2 (-1074)). lra.
            - assert (Na : ya <> yr). { intros E. rewrite E in Hl; replace (yr - yr) with 0 in Hl by ring; rewrite Rabs_R0 in Hl. pose proof (Rabs_pos (yb - yr)).
                assert (Ez : Rabs (yb - yr) = 0) by lra. destruct (Req_dec (yb - yr) 0) as [Hz|Hz]; [lra|]. apply Rabs_no_R0 in Hz. lra. }
              pose proof (no_underflow (px s) (px r) (py a) (py r) Sx Rx Ay Ry HL HU Na) as NU. fold S ya yr in NU.
              assert (Mono : Rabs (rnd S * rnd (ya - yr)) <= Rabs (rnd S * rnd (yb - ya))).
              { rewrite !Rabs_mult. apply Rmult_le_compat_l; [apply Rabs_pos|].
                replace (ya - yr) with (- (yr - ya)) by ring. rewrite rnd_opp, Rabs_Ropp.
                assert (A : 0 <= rnd (yr - ya) <= rnd (yb - ya) \/ rnd (yb - ya) <= rnd (yr - ya) <= 0).
                { destruct Hord as [((O1 & O2) & _)|((O1 & O2) & _)]; [left|right]; split; try (apply rnd_mono; lra); rewrite <- rnd_0; apply rnd_mono; lra. }
                destruct A as [A|A]; [rewrite !Rabs_pos_eq by lra; lra|rewrite !Rabs_left1 by lra; lra]. }
              assert (T0 : bpow radix2 (-1074) <= Rabs (rnd S * rnd (yb - ya))) by lra. apply rnd_abs_tiny in T0.
              intros E. rewrite E, Rabs_R0 in T0. pose proof (bpow_gt_0 radix2 (-1074)). lra. }
          split; auto. intros Fw Fv Nv.
          destruct (param_cut k Hk ux (py r) (py a) (py b) nw nv 1 (or_introl eq_refl) B1) as (R1 & R2 & R3 & R4); auto.
          + rewrite E1. now apply rabs_half.
          + fold ya yb yr. destruct Hord as [(O & _)|(O & _)]; [left|right]; lra.
          + rewrite Rmult_1_l. exact E7.
          + rewrite Rmult_1_l. exact E8.
          + split; [auto|]. split; [auto|]. split; [auto|]. left. split; auto.
        - (* vertical *)
          rewrite !(Rminus_diag_eq (B2R (px r))), !Rmult_0_l in Hab by reflexivity.
          assert (Z : B2R ux = 0) by (rewrite E1, Rminus_diag_eq by reflexivity; apply rnd_0).
          destruct (mul_zero_val ux wy (proj1 B1) (proj1 B4) Z) as (F1 & Z1 & _).
          destruct (mul_zero_val ux vy (proj1 B1) (proj1 B6) Z) as (F3 & Z3 & _).
          destruct (add_zero_val _ _ F1 Q1 Z1) as (_ & _ & F5 & E7). destruct (add_zero_val _ _ F3 Q3 Z3) as (_ & _ & F6 & E8).
          fold nw in F5, E7. fold nv in F6, E8. rewrite P1, En, E3 in E7. rewrite P3, En, E5 in E8.
          rewrite Ropp_mult_distr_l_reverse, rnd_opp in E7, E8.
          split; auto. split; auto.
          set (S := B2R (py s) - B2R (py r)) in *. set (ya := B2R (px a)) in *. set (yb := B2R (px b)) in *. set (yr := B2R (px r)) in *.
          assert (Hord : (ya <= yr <= yb /\ (ya < yr \/ yr < yb) \/ yb <= yr <= ya /\ (yb < yr \/ yr < ya))).
          { assert (HS : S <> 0) by (intros E; rewrite E, Rabs_R0 in HL; pose proof (bpow_gt_0 radix2 (-250)); lra).
            destruct (Rlt_or_le 0 S) as [PS|PS].
            - assert (G : forall z, (0 - S * z <= 0 -> 0 <= z) /\ (0 < 0 - S * z -> z < 0)).
              { intros z. split; intros Hz.
                - apply (Rmult_le_reg_l S); lra.
                - apply (Rmult_lt_reg_l S); lra. }
              destruct Hab as [(H1 & H2)|(H1 & H2)]; apply G in H1; apply G in H2; lra.
            - assert (G : forall z, (0 - S * z <= 0 -> z <= 0) /\ (0 < 0 - S * z -> 0 < z)).
              { intros z. split; intros Hz.
                - apply (Rmult_le_reg_l (- S)); lra.
                - apply (Rmult_lt_reg_l (- S)); lra. }
              destruct Hab as [(H1 & H2)|(H1 & H2)]; apply G in H1; apply G in H2; lra. }
          assert (Nz : B2R nv <> 0).
          { rewrite E8, E2. fold S. intros E0. assert (E0' : rnd (rnd S * rnd (yb - ya)) = 0) by lra. revert E0'. clear E0.
            destruct (Rlt_or_le (Rabs (ya - yr)) (Rabs (yb - yr))) as [Hl|Hl].
            - assert (Nb : yb <> yr) by (intros E; rewrite E in Hl; replace (yr - yr) with 0 in Hl by ring; rewrite Rabs_R0 in Hl; pose proof (Rabs_pos (ya - yr)); lra).
              pose proof (no_underflow (py s) (py r) (px b) (px r) Sy Ry Bx Rx HL HU Nb) as NU. fold S yb yr in NU.
              assert (Mono : Rabs (rnd S * rnd (yb - yr)) <= Rabs (rnd S * rnd (yb - ya))).
              { rewrite !Rabs_mult. apply Rmult_le_compat_l; [apply Rabs_pos|].
                assert (A : 0 <= rnd (yb - yr) <= rnd (yb - ya) \/ rnd (yb - ya) <= rnd (yb - yr) <= 0).
                { destruct Hord as [((O1 & O2) & _)|((O1 & O2) & _)]; [left|right]; split; try (apply rnd_mono; lra); rewrite <- rnd_0; apply rnd_mono; lra. }
                destruct A as [A|A]; [rewrite !Rabs_pos_eq by lra; lra|rewrite !Rabs_left1 by lra; lra]. }
              assert (T0 : bpow radix2 (-1074) <= Rabs (rnd S * rnd (yb - ya))) by lra. apply rnd_abs_tiny in T0.
              intros E. rewrite E, Rabs_R0 in T0. pose proof (bpow_gt_0 radix2 (-1074)). lra.
            - assert (Na : ya <> yr). { intros E. rewrite E in Hl; replace (yr - yr) with 0 in Hl by ring; rewrite Rabs_R0 in Hl. pose proof (Rabs_pos (yb - yr)).
                assert (Ez : Rabs (yb - yr) = 0) by lra. destruct (Req_dec (yb - yr) 0) as [Hz|Hz]; [lra|]. apply Rabs_no_R0 in Hz. lra. }
              pose proof (no_underflow (py s) (py r) (px a) (px r) Sy Ry Ax Rx HL HU Na) as NU. fold S ya yr in NU.
              assert (Mono : Rabs (rnd S * rnd (ya - yr)) <= Rabs (rnd S * rnd (yb - ya))).
              { rewrite !Rabs_mult. apply Rmult_le_compat_l; [apply Rabs_pos|].
                replace (ya - yr) with (- (yr - ya)) by ring. rewrite rnd_opp, Rabs_Ropp.
                assert (A : 0 <= rnd (yr - ya) <= rnd (yb - ya) \/ rnd (yb - ya) <= rnd (yr - ya) <= 0).
                { destruct Hord as [((O1 & O2) & _)|((O1 & O2) & _)]; [left|right]; split; try (apply rnd_mono; lra); rewrite <- rnd_0; apply rnd_mono; lra. }
                destruct A as [A|A]; [rewrite !Rabs_pos_eq by lra; lra|rewrite !Rabs_left1 by lra; lra]. }
              assert (T0 : bpow radix2 (-1074) <= Rabs (rnd S * rnd (yb - ya))) by lra. apply rnd_abs_tiny in T0.
              intros E. rewrite E, Rabs_R0 in T0. pose proof (bpow_gt_0 radix2 (-1074)). lra. }
          split; auto. intros Fw Fv Nv.
          destruct (param_cut k Hk uy (px r) (px a) (px b) nw nv (-1) (or_intror eq_refl) B2) as (R1 & R2 & R3 & R4); auto.
          + rewrite E2. now apply rabs_half.
          + fold ya yb yr. destruct Hord as [(O & _)|(O & _)]; [left|right]; lra.
          + rewrite E7. unfold ya, yr. ring.
          + rewrite E8. unfold ya, yb. ring.
          + split; [auto|]. split; [auto|]. split; [auto|]. right. split; auto. }
      destruct G as (Fw & Fv & Nv & G). destruct (G Fw Fv Nv) as (Ed & Ft & Ht & Hline). clear G.
      destruct (Zb_exact 0 ltac:(cbv; discriminate)) as (F0 & E0).
      assert (Eb : neqb nv (nofZ 0) = false).
      { rewrite neqb_B; auto. change (nofZ 0 : b64) with (Zb 0). rewrite E0. now apply Req_bool_false. }
      rewrite Eb. cbn [negb]. rewrite Ed. cbn [bind]. set (t := ndivraw nw nv) in *.
      destruct (coord_cut k Hk (px a) (px b) t Ax Bx Ft Ht) as (Fx & Ex). destruct (coord_cut k Hk (py a) (py b) t Ay By Ft Ht) as (Fy & Ey).
      fold M m vx vy in Fx, Ex, Fy, Ey. eexists. split; [reflexivity|]. cbn [px py]. split; auto. split; auto. split.
      - exists (at_ (rp a) (rp b) (B2R t)). split; [exists (B2R t); auto|]. unfold rp, at_. cbn [px py]. auto.
      - unfold rp, orient. cbn [px py]. unfold rp in Hline. cbn [px py] in Hline.
        destruct Hline as [(HE & Hd)|(HE & Hd)]; rewrite HE.
        + rewrite (Rminus_diag_eq (B2R (py r))), Rmult_0_l, Rminus_0_r by reflexivity.
          apply mul_abs; [apply Rmax_l|].
          match goal with |- Rabs (?y - _) <= _ => replace (y - B2R (py r)) with ((y - (B2R (py a) + B2R t * (B2R (py b) - B2R (py a)))) + (B2R (py a) + B2R t * (B2R (py b) - B2R (py a)) - B2R (py r))) by ring end.
          eapply Rle_trans; [apply Rabs_triang|]. lra.
        + rewrite (Rminus_diag_eq (B2R (px r))), Rmult_0_l by reflexivity. unfold Rminus at 1. rewrite Rplus_0_l, Rabs_Ropp.
          apply mul_abs; [apply Rmax_r|].
          match goal with |- Rabs (?y - _) <= _ => replace (y - B2R (px r)) with ((y - (B2R (px a) + B2R t * (B2R (px b) - B2R (px a)))) + (B2R (px a) + B2R t * (B2R (px b) - B2R (px a)) - B2R (px r))) by ring end.
          eapply Rle_trans; [apply Rabs_triang|]. lra.
    Qed.

    (** *** One side of the subject, and all of them *)
    Variable D : R.
    Notation eps := (6 * m).
    Notation e := (slen * (18 * m)).
    Notation kap := (4 * (D * eps)).
    Notation thin := (2 * (D * eps)).

    Lemma win_move d a b x : win (rp r) d a -> win (rp r) d b -> closep eps a b x -> d + eps <= D -> win (rp r) D x.
    Proof.
      intros Wa Wb (x' & Sg & E1 & E2) HD. destruct (win_seg (rp r) d a b x' Wa Wb Sg) as (W1 & W2).
      split.
      - replace (px x - px (rp r)) with ((px x - px x') + (px x' - px (rp r))) by ring. eapply Rle_trans; [apply Rabs_triang|lra].
      - replace (py x - py (rp r)) with ((py x - py x') + (py x' - py (rp r))) by ring. eapply Rle_trans; [apply Rabs_triang|lra].
    Qed.

    Lemma zero_diff (x y : b64) : bounded k x -> bounded k y -> neqb (nsub x y) (nofZ 0) = Req_bool (B2R x) (B2R y).
    Proof.
      intros Hx Hy. destruct (diff_val k Hk x y Hx Hy) as (B & E & _). destruct (Zb_exact 0 ltac:(cbv; discriminate)) as (F0 & E0).
      rewrite neqb_B by (first [apply B|exact F0]). change (nofZ 0 : b64) with (Zb 0). rewrite E0, E.
      destruct (rnd_minus x y) as (er & He & ->). pose proof uro_small. apply Rabs_le_iff in He.
      destruct (Req_dec (B2R x) (B2R y)) as [H1|H1].
      - rewrite (Req_bool_true (B2R x)) by auto. apply Req_bool_true. rewrite H1, (Rminus_diag_eq (B2R y)) by reflexivity. ring.
      - rewrite (Req_bool_false (B2R x)) by auto. apply Req_bool_false. intros Hz. apply Rmult_integral in Hz as [Hz|Hz]; lra.
    Qed.

    Lemma e_pos : 0 <= e.
    Proof.
      pose proof (mp k). apply Rmult_le_pos; [|fold M m in H; lra]. eapply Rle_trans; [apply Rabs_pos|apply Rmax_l].
    Qed.

    Lemma rp_eq (p q : point b64) : B2R (px p) = B2R (px q) -> B2R (py p) = B2R (py q) -> rp p = rp q.
    Proof. intros H1 H2. unfold rp. f_equal; auto. Qed.

    Lemma edge_emit d a b E a' ai' : bpt a -> bpt b -> win (rp r) d (rp a) -> win (rp r) d (rp b) -> d + eps <= D ->
      edge_out r U N a (ins (rp r) (rp s) (rp a)) b = (E, (a', ai')) ->
      rp a' = rp b /\ bpt a' /\ ai' = ins (rp r) (rp s) (rp b)
      /\ emit (rp r) (rp s) e D thin (rp a) (ins (rp r) (rp s) (rp a)) (rp b) (map rp E) ai'
      /\ Forall (fun x => is_finite (px x) = true /\ is_finite (py x) = true /\ closep eps (rp a) (rp b) (rp x)) E
      /\ (forall l Q, follows (rp r) D kap (rp b) l Q -> follows (rp r) D kap (rp a) (rp b :: l) (map rp E ++ Q)).
    Proof.
      intros Ba Bb Wa Wb HD H. pose proof (mp k) as Pm. fold M m in Pm. pose proof e_pos as Pe.
      assert (WaD : win (rp r) D (rp a)) by (destruct Wa; split; lra). assert (WbD : win (rp r) D (rp b)) by (destruct Wb; split; lra).
      assert (Cb : is_finite (px b) = true /\ is_finite (py b) = true /\ closep eps (rp a) (rp b) (rp b)).
      { split; [apply Bb|]. split; [apply Bb|]. exists (rp b). split; [exists 1; split; [lra|]; symmetry; apply at_1|].
        rewrite !Rminus_diag_eq by reflexivity. rewrite Rabs_R0. split; lra. }
      unfold edge_out in H. cbn [px py] in H. destruct Ba as (Ax & Ay). destruct Bb as (Bx & By).
      rewrite (zero_diff _ _ Bx Ax), (zero_diff _ _ By Ay) in H.
      destruct (Req_bool (B2R (px b)) (B2R (px a)) && Req_bool (B2R (py b)) (B2R (py a))) eqn:EV.
      { inversion H; subst. apply andb_true_iff in EV as (V1 & V2). revert V1 V2. case Req_bool_spec; [|discriminate]. case Req_bool_spec; [|discriminate].
        intros V2 V1 _ _. assert (Er : rp a' = rp b) by (symmetry; now apply rp_eq). rewrite <- Er.
        split; auto. split; [split; auto|]. split; auto. split; [constructor|]. split; [constructor|].
        intros l Q HQ. cbn [map app]. now constructor. }
      rewrite (inside_exact b (conj Bx By)) in H.
      destruct (ins (rp r) (rp s) (rp b)) eqn:Ib; destruct (ins (rp r) (rp s) (rp a)) eqn:Ia; cbn [app] in H.
      - inversion H; subst. apply ins_iff in Ib. split; auto. split; [split; auto|]. split; auto. cbn [map]. split; [constructor; lra|].
        split; [constructor; auto; constructor|]. intros l Q HQ. cbn [app]. apply fol_skip. now apply fol_here.
      - apply ins_iff in Ib. apply ins_false in Ia.
        destruct (cut_ok a b (conj Ax Ay) (conj Bx By) (or_introl (conj Ia Ib))) as (x & Ex & Fx & Fy & Cx & Nx).
        cbn [px py] in Ex. rewrite Ex in H. inversion H; subst.
        pose proof (win_move d _ _ _ Wa Wb Cx HD) as Wx.
        split; auto. split; [split; auto|]. split; auto. cbn [map app]. split.
        { constructor; auto; [lra|]. now apply (close_thin (rp r) D). }
        split; [constructor; auto; constructor; auto; constructor|].
        intros l Q HQ. cbn [app]. apply fol_side; [now apply close_side|]. now apply fol_here.
      - apply ins_iff in Ia. apply ins_false in Ib.
        destruct (cut_ok a b (conj Ax Ay) (conj Bx By) (or_intror (conj Ib Ia))) as (x & Ex & Fx & Fy & Cx & Nx).
        cbn [px py] in Ex. rewrite Ex in H. inversion H; subst.
        pose proof (win_move d _ _ _ Wa Wb Cx HD) as Wx.
        split; auto. split; [split; auto|]. split; auto. cbn [map app]. split.
        { constructor; auto; [lra|]. now apply (close_thin (rp r) D). }
        split; [constructor; auto; constructor; auto; constructor|].
        intros l Q HQ. cbn [app]. apply fol_side; auto. now apply close_side.
      - inversion H; subst. apply ins_false in Ib. split; auto. split; [split; auto|]. split; auto. cbn [map]. split; [constructor; lra|].
        split; [constructor|]. intros l Q HQ. cbn [app]. now constructor.
    Qed.

    Lemma edges_run d : d + eps <= D -> forall l a E st, bpt a -> Forall bpt l -> win (rp r) d (rp a) -> Forall (fun p => win (rp r) d (rp p)) l ->
      edges_out r U N a (ins (rp r) (rp s) (rp a)) l = (E, st) ->
      snd st = ins (rp r) (rp s) (last (map rp l) (rp a))
      /\ run (rp r) (rp s) e D thin (rp a) (ins (rp r) (rp s) (rp a)) (map rp l) (map rp E) (snd st)
      /\ follows (rp r) D kap (rp a) (map rp l) (map rp E)
      /\ Forall (fun x => is_finite (px x) = true /\ is_finite (py x) = true
                 /\ exists u v, In u (map rp (a :: l)) /\ In v (map rp (a :: l)) /\ closep eps u v (rp x)) E.
    Proof.
      intros HD. induction l as [|b l IH]; intros a E st Ba Bl Wa Wl H.
      - cbn in H. inversion H; subst. cbn. split; auto. split; [constructor|]. split; [constructor|constructor].
      - apply Forall_cons_iff in Bl as (Bb & Bl). apply Forall_cons_iff in Wl as (Wb & Wl). cbn [edges_out] in H.
        destruct (edge_out r U N a (ins (rp r) (rp s) (rp a)) b) as (E1, (a1, ai1)) eqn:Ee.
        destruct (edges_out r U N a1 ai1 l) as (E2, st2) eqn:El. injection H as <- <-.
        destruct (edge_emit d a b E1 a1 ai1 Ba Bb Wa Wb HD Ee) as (Ra & B1 & -> & Hem & HF & Hfol).
        assert (Wa1 : win (rp r) d (rp a1)) by (now rewrite Ra).
        rewrite <- Ra in El. destruct (IH a1 E2 st2 B1 Bl Wa1 Wl El) as (Hs & Hr & Hf & HF2).
        rewrite Ra in Hs, Hr, Hf. cbn [map]. rewrite last_cons, map_app. split; auto. split; [econstructor; eauto|]. split; [now apply Hfol|].
        apply Forall_app. split.
        + eapply Forall_impl; [|exact HF]. cbn beta. intros x (F1 & F2 & C). split; auto. split; auto. exists (rp a), (rp b).
          split; [now left|]. split; [right; now left|auto].
        + eapply Forall_impl; [|exact HF2]. cbn beta. intros x (F1 & F2 & u & v & Hu & Hv & C). split; auto. split; auto. exists u, v.
          cbn [map In] in Hu, Hv |- *. rewrite Ra in Hu, Hv. split; [now right|]. split; [now right|auto].
    Qed.
  End Side.
End Axis.
