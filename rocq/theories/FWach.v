(** Wachspress weights in binary64: the arithmetic. *)
From Coq Require Import Reals Lra Psatz.
From Flocq Require Import IEEE754.BinarySingleNaN Core.
From Verif Require Import RBase NumB64 NumRoom FBase FBuild MUtils MGeometry MAlgorithms FPoint FCut FWeights
  SpecTree SpecPoly SpecGeom PPartition GTriangle GWach.
Open Scope R_scope.

(** ** Relative errors *)
Definition rel (d x x0 : R) : Prop := Rabs (x - x0) <= d * x0.

Lemma rel_weak d d' x x0 : 0 <= x0 -> d <= d' -> rel d x x0 -> rel d' x x0.
Proof. unfold rel. intros P H R0. assert (d * x0 <= d' * x0) by (apply Rmult_le_compat_r; auto). lra. Qed.
Lemma rel_prod d d' x x0 y y0 : 0 <= d -> 0 <= x0 -> 0 <= y0 -> rel d x x0 -> rel d' y y0 -> rel (d + d' + d * d') (x * y) (x0 * y0).
Proof.
  unfold rel. intros Pd Px Py Hx Hy. replace (x * y - x0 * y0) with ((x - x0) * y0 + x0 * (y - y0) + (x - x0) * (y - y0)) by ring.
  assert (A1 : Rabs ((x - x0) * y0) <= d * x0 * y0) by (rewrite Rabs_mult, (Rabs_pos_eq y0) by auto; now apply Rmult_le_compat_r).
  assert (A2 : Rabs (x0 * (y - y0)) <= x0 * (d' * y0)) by (rewrite Rabs_mult, (Rabs_pos_eq x0) by auto; now apply Rmult_le_compat_l).
  assert (A3 : Rabs ((x - x0) * (y - y0)) <= d * x0 * (d' * y0)) by now apply mul_abs.
  apply Rabs_le_iff in A1, A2, A3. apply Rabs_le_iff. lra.
Qed.
Lemma rel_quot d d' e x x0 y y0 : 0 <= x0 -> 0 < y0 -> d' <= / 10 -> d + d' <= e * (1 - d') -> rel d x x0 -> rel d' y y0 ->
  rel e (x / y) (x0 / y0) /\ (1 - d') * y0 <= y.
Proof.
  unfold rel. intros Px Py Hd He Hx Hy. apply Rabs_le_iff in Hy.
  assert (L : (1 - d') * y0 <= y) by lra. split; auto.
  assert (Ly : 0 < y) by (assert (0 < (1 - d') * y0) by (apply Rmult_lt_0_compat; lra); lra).
  replace (x / y - x0 / y0) with (((x - x0) * y0 - x0 * (y - y0)) / (y0 * y)) by (field; lra).
  unfold Rdiv. rewrite Rabs_mult, (Rabs_pos_eq (/ (y0 * y))) by (apply Rlt_le, Rinv_0_lt_compat, Rmult_lt_0_compat; auto).
  apply Rmult_le_reg_r with (y0 * y); [apply Rmult_lt_0_compat; auto|].
  rewrite Rmult_assoc, Rinv_l, Rmult_1_r by (apply Rgt_not_eq, Rmult_lt_0_compat; auto).
  replace (e * (x0 * / y0) * (y0 * y)) with (e * x0 * y) by (field; lra).
  assert (A1 : Rabs ((x - x0) * y0) <= d * x0 * y0) by (rewrite Rabs_mult, (Rabs_pos_eq y0) by lra; apply Rmult_le_compat_r; lra).
  assert (Hy' : Rabs (y - y0) <= d' * y0) by (apply Rabs_le_iff; lra).
  assert (A2 : Rabs (x0 * (y - y0)) <= x0 * (d' * y0)) by (rewrite Rabs_mult, (Rabs_pos_eq x0) by auto; now apply Rmult_le_compat_l).
  assert (Pxy : 0 <= x0 * y0) by (apply Rmult_le_pos; lra).
  assert (A3 : (d + d') * (x0 * y0) <= e * (1 - d') * (x0 * y0)) by (apply Rmult_le_compat_r; auto).
  assert (Pdd : 0 <= d + d' \/ d + d' < 0) by lra.
  assert (Pe : (x0 = 0) \/ 0 <= e).
  { destruct (Req_dec x0 0) as [|N]; auto. right. pose proof (Rabs_pos (x - x0)). pose proof (Rabs_pos (y - y0)).
    assert (0 <= d) by (apply Rmult_le_reg_r with x0; lra). assert (0 <= d') by (apply Rmult_le_reg_r with y0; lra).
    apply Rmult_le_reg_r with (1 - d'); lra. }
  assert (A4 : e * x0 * ((1 - d') * y0) <= e * x0 * y).
  { apply Rmult_le_compat_l; auto. destruct Pe as [-> |Pe]; [lra|now apply Rmult_le_pos]. }
  apply Rabs_le_iff in A1, A2. apply Rabs_le_iff. lra.
Qed.
Lemma rel_rnd d x x0 e h : 0 <= x0 -> d <= / 10 -> rel d x x0 -> Rabs e <= uro -> Rabs h <= uro / 100 * x0 -> rel (d + 1.2 * uro) (x * (1 + e) + h) x0.
Proof.
  unfold rel. intros Px Hd Hx He Hh. replace (x * (1 + e) + h - x0) with ((x - x0) + x * e + h) by ring.
  assert (A0 : Rabs x <= 1.1 * x0).
  { apply Rabs_le_iff in Hx. assert (d * x0 <= / 10 * x0) by now apply Rmult_le_compat_r. apply Rabs_le_iff. lra. }
  assert (A1 : Rabs (x * e) <= 1.1 * x0 * uro) by now apply mul_abs.
  apply Rabs_le_iff in Hx, A1, Hh. pose proof uro_pos. assert (0 <= uro * x0) by (apply Rmult_le_pos; lra). apply Rabs_le_iff. lra.
Qed.

(** the area terms and weights of the loop *)
Definition areaB (u v p : point b64) : b64 := nabs (cross_product (to_vector u v) (to_vector u p)).
Definition wtB (p a b c : point b64) : b64 := ndivraw (nmul (nofZ 2) (areaB a b c)) (nmul (areaB a b p) (areaB b c p)).
Fixpoint wtsB (p a b : point b64) (cs : list (point b64)) : list b64 :=
  match cs with [] => [] | c :: t => wtB p a b c :: wtsB p b c t end.
Lemma wtsB_length p cs : forall a b, length (wtsB p a b cs) = length cs.
Proof. induction cs as [|c cs IH]; intros a b; cbn; auto. Qed.

Section Scale.
  Context (k : Z) (Hk : (-150 <= k <= 250)%Z).
  Variables W D : R.
  Hypothesis HW : bpow radix2 (-200) <= W <= bpow radix2 252.
  Hypothesis HD : 1000 * (uro * (W * W)) <= D.
  Let S := uro * (W * W).
  Let q := S / D.

  Lemma W_pos : 0 < W.
  Proof. pose proof (bpow_gt_0 radix2 (-200)). lra. Qed.
  Lemma WW_low : bpow radix2 (-400) <= W * W.
  Proof.
    replace (-400)%Z with (-200 + -200)%Z by lia. rewrite bpow_plus. pose proof (bpow_gt_0 radix2 (-200)). apply Rmult_le_compat; lra.
  Qed.
  Lemma WW_high : W * W <= bpow radix2 504.
  Proof. replace 504%Z with (252 + 252)%Z by lia. rewrite bpow_plus. pose proof W_pos. apply Rmult_le_compat; lra. Qed.
  Lemma D_low : bpow radix2 (-44) * (W * W) <= D.
  Proof.
    assert (H : bpow radix2 (-44) <= 1000 * uro).
    { unfold uro. replace (-44)%Z with (9 + -53)%Z by lia. rewrite bpow_plus. change (bpow radix2 9) with 512. pose proof (bpow_gt_0 radix2 (-53)). lra. }
    pose proof WW_low. pose proof (bpow_gt_0 radix2 (-400)).
    assert (bpow radix2 (-44) * (W * W) <= 1000 * uro * (W * W)) by (apply Rmult_le_compat_r; lra). lra.
  Qed.
  Lemma S_pos : 0 < S.
  Proof. unfold S. apply Rmult_lt_0_compat; [apply uro_pos|]. pose proof W_pos. now apply Rmult_lt_0_compat. Qed.
  Lemma D_pos : 0 < D.
  Proof. pose proof S_pos as H. unfold S in H. lra. Qed.
  Lemma D_abs : bpow radix2 (-444) <= D.
  Proof.
    eapply Rle_trans; [|apply D_low]. replace (-444)%Z with (-44 + -400)%Z by lia. rewrite bpow_plus.
    apply Rmult_le_compat_l; [apply bpow_ge_0|apply WW_low].
  Qed.
  Lemma q_small : 0 < q <= / 1000.
  Proof.
    pose proof S_pos. pose proof D_pos. unfold q. split; [now apply Rdiv_lt_0_compat|].
    apply Rmult_le_reg_r with D; auto. unfold Rdiv. rewrite Rmult_assoc, Rinv_l by lra. unfold S in *. lra.
  Qed.
  Lemma uro_q : D <= 2 * (W * W) -> uro <= 2 * q.
  Proof.
    intros H. pose proof D_pos. unfold q, S. apply Rmult_le_reg_r with D; auto.
    replace (2 * (uro * (W * W) / D) * D) with (uro * (2 * (W * W))) by (field; lra). apply Rmult_le_compat_l; auto. pose proof uro_pos. lra.
  Qed.

  (** an area of ordinary size, with its error *)
  Definition goodA (x : b64) (x0 : R) : Prop := bounded (2 * k + 3) x /\ Rabs (B2R x - x0) <= 8.3 * S /\ D <= x0 <= 2 * (W * W).

  Lemma good_rel x x0 : goodA x x0 -> rel (8.3 * q) (B2R x) x0.
  Proof.
    intros (_ & H & H0 & _). unfold rel. eapply Rle_trans; [exact H|]. pose proof D_pos. pose proof q_small as (Q & _).
    assert (q * D <= q * x0) by (apply Rmult_le_compat_l; lra). unfold q at 1 in H2. replace (S / D * D) with S in H2 by (field; lra). lra.
  Qed.

  Lemma eta_uro e x0 : bpow radix2 e <= x0 -> (-1014 <= e)%Z -> eta <= uro / 100 * x0.
  Proof.
    intros H He. pose proof uro_pos. apply Rle_trans with (uro / 100 * bpow radix2 e); [|apply Rmult_le_compat_l; lra].
    apply Rle_trans with (bpow radix2 (-53 + -7 + e)).
    - unfold eta. apply bpow_le. lia.
    - rewrite !bpow_plus. change (bpow radix2 (-7)) with (/ 128). pose proof (bpow_gt_0 radix2 e). fold uro.
      apply Rmult_le_compat_r; lra.
  Qed.

  Lemma wt_low c a a' : D <= c -> a <= 2 * (W * W) -> a' <= 2 * (W * W) -> 0 < a -> 0 < a' -> D / (2 * (W * W) * (W * W)) <= 2 * c / (a * a').
  Proof.
    intros Hc Ha Ha' Pa Pa'. pose proof D_pos. pose proof W_pos. set (w := W * W) in *.
    assert (Pw : 0 < w) by (unfold w; now apply Rmult_lt_0_compat).
    assert (P1 : 0 < a * a') by now apply Rmult_lt_0_compat.
    assert (P2 : 0 < 2 * w * w) by (apply Rmult_lt_0_compat; lra).
    apply Rmult_le_reg_r with (a * a'); auto. replace (2 * c / (a * a') * (a * a')) with (2 * c) by (field; lra).
    apply Rmult_le_reg_r with (2 * w * w); auto. replace (D / (2 * w * w) * (a * a') * (2 * w * w)) with (D * (a * a')) by (field; lra).
    assert (a * a' <= 2 * w * (2 * w)) by (apply Rmult_le_compat; lra).
    assert (D * (a * a') <= c * (2 * w * (2 * w))) by (apply Rmult_le_compat; lra). lra.
  Qed.
  Lemma wt_high c a a' : 0 <= c <= 2 * (W * W) -> D <= a -> D <= a' -> 2 * c / (a * a') <= 4 * (W * W) / (D * D).
  Proof.
    intros Hc Ha Ha'. pose proof D_pos.
    assert (P1 : 0 < a * a') by (apply Rmult_lt_0_compat; lra). assert (P2 : 0 < D * D) by now apply Rmult_lt_0_compat.
    assert (L : D * D <= a * a') by (apply Rmult_le_compat; lra).
    unfold Rdiv. apply Rmult_le_compat; try lra.
    - apply Rlt_le, Rinv_0_lt_compat; auto.
    - apply Rinv_le; auto.
  Qed.
  Lemma low_abs : bpow radix2 (-550) <= D / (2 * (W * W) * (W * W)).
  Proof.
    pose proof D_low. pose proof WW_high. pose proof WW_low as L. pose proof (bpow_gt_0 radix2 (-400)). set (w := W * W) in *.
    assert (P2 : 0 < 2 * w * w) by (apply Rmult_lt_0_compat; lra).
    apply Rmult_le_reg_r with (2 * w * w); auto. replace (D / (2 * w * w) * (2 * w * w)) with D by (field; lra).
    eapply Rle_trans; [|exact H]. replace (bpow radix2 (-550) * (2 * w * w)) with (2 * bpow radix2 (-550) * w * w) by ring.
    apply Rmult_le_compat_r; [lra|].
    apply Rle_trans with (2 * bpow radix2 (-550) * bpow radix2 504).
    - apply Rmult_le_compat_l; auto. pose proof (bpow_gt_0 radix2 (-550)). lra.
    - change 2 with (bpow radix2 1). rewrite <- !bpow_plus. apply bpow_le. lia.
  Qed.
  Lemma high_abs : 4 * (W * W) / (D * D) <= bpow radix2 490.
  Proof.
    pose proof D_low. pose proof WW_low as L. pose proof (bpow_gt_0 radix2 (-400)). pose proof D_pos. set (w := W * W) in *.
    assert (P2 : 0 < D * D) by now apply Rmult_lt_0_compat.
    apply Rmult_le_reg_r with (D * D); auto. replace (4 * w / (D * D) * (D * D)) with (4 * w) by (field; lra).
    pose proof (bpow_gt_0 radix2 (-44)) as P44.
    assert (E : bpow radix2 (-44) * w * (bpow radix2 (-44) * w) <= D * D) by (apply Rmult_le_compat; auto; apply Rmult_le_pos; lra).
    apply Rle_trans with (bpow radix2 490 * (bpow radix2 (-44) * w * (bpow radix2 (-44) * w))); [|apply Rmult_le_compat_l; [apply bpow_ge_0|exact E]].
    replace (bpow radix2 490 * (bpow radix2 (-44) * w * (bpow radix2 (-44) * w))) with (bpow radix2 490 * bpow radix2 (-44) * bpow radix2 (-44) * w * w) by ring.
    apply Rmult_le_compat_r; [lra|]. rewrite <- !bpow_plus. apply Rle_trans with (bpow radix2 402 * bpow radix2 (-400)).
    - rewrite <- bpow_plus. change (bpow radix2 (402 + -400)) with 4. lra.
    - replace (490 + -44 + -44)%Z with 402%Z by lia. apply Rmult_le_compat_l; [apply bpow_ge_0|exact L].
  Qed.

  (** one weight before normalisation *)
  Lemma weight_rel (C A A' : b64) c0 a0 a0' : goodA C c0 -> goodA A a0 -> goodA A' a0' ->
    ndiv (nmul (nofZ 2) C) (nmul A A') = Ok (ndivraw (nmul (nofZ 2) C) (nmul A A'))
    /\ bounded 500 (ndivraw (nmul (nofZ 2) C) (nmul A A'))
    /\ rel (33 * q) (B2R (ndivraw (nmul (nofZ 2) C) (nmul A A'))) (2 * c0 / (a0 * a0')).
  Proof.
    intros GC GA GA'. pose proof (good_rel _ _ GC) as RC. pose proof (good_rel _ _ GA) as RA. pose proof (good_rel _ _ GA') as RA'.
    destruct GC as ((FC & BC) & _ & C1 & C2), GA as ((FA & BA) & _ & A1 & A2), GA' as ((FA' & BA') & _ & A1' & A2').
    pose proof q_small as (Pq & Hq). pose proof (uro_q ltac:(lra)) as Hu. pose proof D_pos as PD. pose proof D_abs as LD. pose proof uro_pos as Pu.
    destruct (Zb_exact 2 ltac:(lia)) as (F2 & E2).
    assert (B0 : Rabs (B2R (nofZ 2 : b64) * B2R C) <= bpow radix2 (1 + (2 * k + 3))).
    { change (nofZ 2 : b64) with (Zb 2). rewrite E2, bpow_plus. apply mul_abs; auto. rewrite Rabs_pos_eq by lra. change (bpow radix2 1) with 2. lra. }
    destruct (mult_err (1 + (2 * k + 3)) (nofZ 2) C) as ((FN & _) & e1 & h1 & He1 & Hh1 & EN); auto; [lia|].
    set (N := nmul (nofZ 2) C) in *. change (nofZ 2 : b64) with (Zb 2) in EN. rewrite E2 in EN.
    assert (RN : rel (8.3 * q + 1.2 * uro) (B2R N) (2 * c0)).
    { rewrite EN. apply rel_rnd; auto; try lra.
      - unfold rel in *. replace (2 * B2R C - 2 * c0) with (2 * (B2R C - c0)) by ring. rewrite Rabs_mult, Rabs_pos_eq by lra. lra.
      - eapply Rle_trans; [exact Hh1|]. apply (eta_uro (-444)); [lra|lia]. }
    assert (B1 : Rabs (B2R A * B2R A') <= bpow radix2 ((2 * k + 3) + (2 * k + 3))) by (rewrite bpow_plus; now apply mul_abs).
    destruct (mult_err ((2 * k + 3) + (2 * k + 3)) A A') as ((FP & _) & e2 & h2 & He2 & Hh2 & EP); auto; [lia|].
    set (P := nmul A A') in *.
    assert (PA : D * D <= a0 * a0') by (apply Rmult_le_compat; lra).
    assert (PDD : 0 < D * D) by now apply Rmult_lt_0_compat.
    assert (RP : rel (16.7 * q + 1.2 * uro) (B2R P) (a0 * a0')).
    { rewrite EP. apply rel_rnd; auto; try lra.
      - eapply rel_weak; [lra| |apply (rel_prod (8.3 * q) (8.3 * q)); auto; lra].
        assert (q * q <= / 1000 * q) by (apply Rmult_le_compat_r; lra). lra.
      - eapply Rle_trans; [exact Hh2|]. apply (eta_uro (-444 + -444)); [|lia]. rewrite bpow_plus.
        pose proof (bpow_gt_0 radix2 (-444)). eapply Rle_trans; [|exact PA]. apply Rmult_le_compat; lra. }
    destruct (rel_quot (8.3 * q + 1.2 * uro) (16.7 * q + 1.2 * uro) (30.45 * q) (B2R N) (2 * c0) (B2R P) (a0 * a0')) as (RQ & LP); auto; try lra.
    { assert (q * q <= / 1000 * q) by (apply Rmult_le_compat_r; lra). assert (q * uro <= / 1000 * uro) by (apply Rmult_le_compat_r; lra). lra. }
    pose proof (wt_low c0 a0 a0' C1 A2 A2' ltac:(lra) ltac:(lra)) as LQ.
    pose proof (wt_high c0 a0 a0' ltac:(lra) A1 A1') as UQ. pose proof low_abs as LQ'. pose proof high_abs as UQ'.
    set (w0 := 2 * c0 / (a0 * a0')) in *. pose proof (bpow_gt_0 radix2 (-550)) as P550.
    assert (BQ : Rabs (B2R N / B2R P) <= bpow radix2 500).
    { unfold rel in RQ. assert (30.45 * q * w0 <= 0.1 * w0) by (apply Rmult_le_compat_r; lra). apply Rabs_le_iff in RQ.
      replace 500%Z with (10 + 490)%Z by lia. rewrite bpow_plus. change (bpow radix2 10) with 1024.
      apply Rabs_le_iff. lra. }
    assert (NP : B2R P <> 0).
    { apply Rgt_not_eq. assert (0 < (1 - (16.7 * q + 1.2 * uro)) * (a0 * a0')) by (apply Rmult_lt_0_compat; lra). lra. }
    destruct (div_err 500 N P) as (DV & BD & e3 & h3 & He3 & Hh3 & EV); auto; [lia|].
    split; auto. split; auto. rewrite EV.
    eapply rel_weak; [lra| |apply (rel_rnd (30.45 * q)); eauto; try lra].
    - lra.
    - eapply Rle_trans; [exact Hh3|]. apply (eta_uro (-550)); [lra|lia].
  Qed.

  (** the running sum *)
  Lemma sum_rel : forall (l : list b64) (l0 : list R) (s : b64) (s0 d : R), Forall2 (fun w w0 => is_finite w = true /\ 0 <= w0 /\ rel (33 * q) (B2R w) w0) l l0 ->
    is_finite s = true -> 0 <= s0 -> rel d (B2R s) s0 -> 33 * q <= d -> d + 1.2 * (IZR (zlen l) * uro) <= / 10 -> s0 + sumR l0 <= bpow radix2 900 ->
    is_finite (fold_left nadd l s) = true /\ rel (d + 1.2 * (IZR (zlen l) * uro)) (B2R (fold_left nadd l s)) (s0 + sumR l0).
  Proof.
    pose proof uro_pos as Pu.
    induction l as [|w l IH]; intros l0 s s0 d HF Fs Ps Rs Hd Hn HB; inversion HF as [|? w0 ? l0' (Fw & Pw & Rw) HF']; subst.
    - cbn [fold_left sumR]. unfold zlen. cbn. split; auto. rewrite Rplus_0_r. eapply rel_weak; eauto. lra.
    - cbn [fold_left sumR] in *.
      assert (En : IZR (zlen (w :: l)) = IZR (zlen l) + 1) by (unfold zlen; cbn [length]; rewrite Nat2Z.inj_succ, <- Z.add_1_r, plus_IZR; reflexivity).
      rewrite En in *. assert (Pn : 0 <= IZR (zlen l)) by (apply IZR_le; unfold zlen; lia).
      assert (Pnu : 0 <= IZR (zlen l) * uro) by (apply Rmult_le_pos; lra).
      assert (Pl : 0 <= sumR l0').
      { clear - HF'. induction HF' as [|x y l l' (_ & A & _) HF IH]; cbn [sumR]; lra. }
      assert (Rsw : rel d (B2R s + B2R w) (s0 + w0)).
      { unfold rel in *. apply Rabs_le_iff in Rs, Rw. assert (33 * q * w0 <= d * w0) by (apply Rmult_le_compat_r; auto). apply Rabs_le_iff. lra. }
      assert (BS : Rabs (B2R s + B2R w) <= bpow radix2 901).
      { unfold rel in Rsw. assert (d * (s0 + w0) <= / 10 * (s0 + w0)) by (apply Rmult_le_compat_r; lra). apply Rabs_le_iff in Rsw.
        replace 901%Z with (1 + 900)%Z by lia. rewrite bpow_plus. change (bpow radix2 1) with 2. apply Rabs_le_iff. lra. }
      destruct (plus_err 901 s w) as ((F1 & _) & e & He & E); auto; [lia|].
      assert (RN : rel (d + 1.2 * uro) (B2R (nadd s w)) (s0 + w0)).
      { rewrite E. replace ((B2R s + B2R w) * (1 + e)) with ((B2R s + B2R w) * (1 + e) + 0) by ring.
        apply rel_rnd; auto; try lra. rewrite Rabs_R0. apply Rmult_le_pos; lra. }
      destruct (IH l0' (nadd s w) (s0 + w0) (d + 1.2 * uro)) as (Ff & Rf); auto; try lra.
      split; auto. eapply rel_weak; [lra| |replace (s0 + (w0 + sumR l0')) with (s0 + w0 + sumR l0') by ring; exact Rf]. lra.
  Qed.

  (** normalisation *)
  Lemma norm_rel (w s : b64) w0 s0 n : is_finite w = true -> is_finite s = true -> 0 < w0 <= s0 ->
    bpow radix2 (-900) <= w0 / s0 -> D <= 2 * (W * W) -> 0 <= n * uro <= / 1000 ->
    rel (33 * q) (B2R w) w0 -> rel (33 * q + 1.2 * (n * uro)) (B2R s) s0 ->
    ndiv w s = Ok (ndivraw w s) /\ bounded 2 (ndivraw w s) /\ rel (72 * q + 2 * (n * uro)) (B2R (ndivraw w s)) (w0 / s0).
  Proof.
    intros Fw Fs Hw HL HD2 Hn Rw Rs. pose proof q_small as (Pq & Hq). pose proof (uro_q HD2) as Hu. pose proof uro_pos as Pu.
    set (x := n * uro) in *.
    destruct (rel_quot (33 * q) (33 * q + 1.2 * x) (68.5 * q + 1.25 * x) (B2R w) w0 (B2R s) s0) as (RQ & LS); auto; try lra.
    { assert (q * q <= / 1000 * q) by (apply Rmult_le_compat_r; lra). assert (x * q <= / 1000 * q) by (apply Rmult_le_compat_r; lra).
      assert (x * x <= / 1000 * x) by (apply Rmult_le_compat_r; lra). lra. }
    assert (Hr1 : w0 / s0 <= 1) by (apply Rmult_le_reg_r with s0; [lra|]; unfold Rdiv; rewrite Rmult_assoc, Rinv_l; lra).
    pose proof (bpow_gt_0 radix2 (-900)) as P900.
    assert (BQ : Rabs (B2R w / B2R s) <= bpow radix2 2).
    { unfold rel in RQ. assert ((68.5 * q + 1.25 * x) * (w0 / s0) <= 1 * (w0 / s0)) by (apply Rmult_le_compat_r; lra). apply Rabs_le_iff in RQ.
      change (bpow radix2 2) with 4. apply Rabs_le_iff. lra. }
    assert (NS : B2R s <> 0).
    { apply Rgt_not_eq. assert (0 < (1 - (33 * q + 1.2 * x)) * s0) by (apply Rmult_lt_0_compat; lra). lra. }
    destruct (div_err 2 w s) as (DV & BD & e & h & He & Hh & EV); auto; [lia|].
    split; auto. split; auto. rewrite EV. eapply rel_weak; [lra| |apply (rel_rnd (68.5 * q + 1.25 * x)); eauto; try lra].
    - lra.
    - eapply Rle_trans; [exact Hh|]. apply (eta_uro (-900)); [auto|lia].
  Qed.
End Scale.
