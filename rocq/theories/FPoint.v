(** Point in polygon tests in binary64, compared with exact geometry. *)
From Coq Require Import Reals Lra Psatz.
From Flocq Require Import IEEE754.BinarySingleNaN Core.
From Verif Require Import RBase NumB64 NumRoom FBase FBuild MGeometry SpecPoly GTriangle GRay.
Open Scope R_scope.

(** the exact value of a point *)
Definition rp (p : point b64) : pt := Pt (B2R (px p)) (B2R (py p)).

(** a side is horizontal or climbs by at least 2^-250, and is not shorter than 2^-250 *)
Definition side_ok (u v : pt) : Prop :=
  bpow radix2 (-250) <= Rabs (py v - py u)
  \/ py v = py u /\ bpow radix2 (-250) <= Rabs (px v - px u).

(* ------------------------------------------------------------------ *)
(** ** Relative errors *)
Lemma uro_small : uro <= / 1000000.
Proof. rewrite uro_val. lra. Qed.

Lemma rel_mul a al e : Rabs (a - 1) <= al -> al <= / 1000 -> Rabs e <= uro -> Rabs (a * (1 + e) - 1) <= al + 1.001 * uro.
Proof.
  intros Ha Hal He. replace (a * (1 + e) - 1) with ((a - 1) + a * e) by ring.
  eapply Rle_trans; [apply Rabs_triang|]. apply Rplus_le_compat; auto.
  rewrite Rabs_mult. apply Rmult_le_compat; auto using Rabs_pos.
  apply Rabs_le_iff in Ha. apply Rabs_le_iff. lra.
Qed.
Lemma rel_div a al e : Rabs (a - 1) <= al -> Rabs e <= uro -> Rabs (a / (1 + e) - 1) <= 1.001 * (al + uro).
Proof.
  intros Ha He. pose proof uro_small. pose proof uro_pos. apply Rabs_le_iff in Ha, He.
  replace (a / (1 + e) - 1) with ((a - 1 - e) / (1 + e)) by (field; lra).
  unfold Rdiv. rewrite Rabs_mult, Rmult_comm. apply Rmult_le_compat; try apply Rabs_pos.
  - rewrite Rabs_pos_eq by (left; apply Rinv_0_lt_compat; lra).
    apply (Rmult_le_reg_r (1 + e)); [lra|]. rewrite Rinv_l by lra. lra.
  - apply Rabs_le_iff. lra.
Qed.

Lemma bpow_split a b : bpow radix2 (a + b) = bpow radix2 a * bpow radix2 b.
Proof. apply bpow_plus. Qed.

(* ------------------------------------------------------------------ *)
(** ** The crossing of the ray *)
Section Point.
  Local Notation bounded := NumRoom.bounded.
  Variable k : Z.
  Hypothesis Hk : (-150 <= k <= 250)%Z.
  Let M := bpow radix2 k.
  Let m := uro * M.

  Definition bpt (p : point b64) : Prop := bounded k (px p) /\ bounded k (py p).

  Lemma M_pos' : 0 < M. Proof. apply bpow_gt_0. Qed.
  Lemma m_pos' : 0 < m. Proof. apply Rmult_lt_0_compat; [apply uro_pos|apply M_pos']. Qed.
  Lemma m_eq' : m = bpow radix2 (k - 53).
  Proof. unfold m, M, uro. rewrite <- bpow_plus. f_equal. lia. Qed.
  Lemma m_M' : m <= M / 1000000.
  Proof. unfold m. pose proof uro_small. pose proof M_pos'.
    apply (Rmult_le_compat_r M) in H; lra. Qed.
  (** underflow is far below *)
  Lemma eta_m' : eta * bpow radix2 251 <= m / 1000.
  Proof.
    unfold eta. rewrite <- bpow_plus, m_eq'.
    apply Rle_trans with (bpow radix2 (k - 63)); [apply bpow_le; lia|].
    replace (k - 53)%Z with (10 + (k - 63))%Z by lia. rewrite (bpow_plus radix2 10).
    pose proof (bpow_gt_0 radix2 (k - 63)). change (bpow radix2 10) with 1024. lra.
  Qed.
  Lemma eta_m2 : eta <= m / 1000.
  Proof.
    eapply Rle_trans; [|exact eta_m']. pose proof eta_pos. rewrite <- (Rmult_1_r eta) at 1.
    apply Rmult_le_compat_l; [lra|]. change 1 with (bpow radix2 0). apply bpow_le. lia.
  Qed.

  Lemma diff_bound (x y : b64) : bounded k x -> bounded k y -> Rabs (B2R x - B2R y) <= 2 * M.
  Proof. intros (_ & Hx) (_ & Hy). fold M in Hx, Hy. apply Rabs_le_iff in Hx, Hy. apply Rabs_le_iff. lra. Qed.
  Lemma twoM : 2 * M = bpow radix2 (k + 1).
  Proof. rewrite bpow_plus. change (bpow radix2 1) with 2. unfold M. ring. Qed.

  (** a difference of coordinates *)
  Lemma diff_err (x y : b64) : bounded k x -> bounded k y ->
    bounded (k + 1) (nsub x y) /\ exists e, Rabs e <= uro /\ B2R (nsub x y) = (B2R x - B2R y) * (1 + e).
  Proof.
    intros Hx Hy. apply minus_err; [lia|apply Hx|apply Hy|]. rewrite <- twoM. now apply diff_bound.
  Qed.

  (** the computed crossing of the ray and the side *)
  Lemma crossing_value p u v : bpt p -> bpt u -> bpt v ->
    bpow radix2 (-250) <= Rabs (B2R (py v) - B2R (py u)) ->
    0 <= (B2R (py p) - B2R (py u)) / (B2R (py v) - B2R (py u)) <= 1 ->
    exists xh : b64, (let* q := ndiv (nmul (nsub (px v) (px u)) (nsub (py p) (py u))) (nsub (py v) (py u)) in
                    Ok (nltb (px p) (nadd q (px u)))) = Ok (nltb (px p) xh) /\ is_finite xh = true
      /\ Rabs (B2R xh - ((B2R (px v) - B2R (px u)) * (B2R (py p) - B2R (py u)) / (B2R (py v) - B2R (py u)) + B2R (px u))) <= 16 * m.
  Proof.
    intros (Px & Py) (Ux & Uy) (Vx & Vy) Hdy Hs01.
    pose proof m_pos' as Pm; pose proof m_M' as HmM; pose proof M_pos' as PM; pose proof eta_m2 as He; pose proof eta_m' as He'.
    pose proof uro_pos as Pu; pose proof uro_small as Su; pose proof eta_pos as Pe.
    pose proof (bpow_gt_0 radix2 (-250)) as P250.
    set (d := B2R (px v) - B2R (px u)) in *; set (h := B2R (py p) - B2R (py u)) in *;
         set (dy := B2R (py v) - B2R (py u)) in *.
    assert (Hdy0 : dy <> 0) by (intros E; rewrite E, Rabs_R0 in Hdy; lra).
    destruct (diff_err (px v) (px u) Vx Ux) as (B1 & e1 & He1 & E1); fold d in E1.
    destruct (diff_err (py p) (py u) Py Uy) as (B2 & e2 & He2 & E2); fold h in E2.
    destruct (diff_err (py v) (py u) Vy Uy) as (B4 & e4 & He4 & E4); fold dy in E4.
    set (a1 := nsub (px v) (px u)) in *; set (a2 := nsub (py p) (py u)) in *; set (a4 := nsub (py v) (py u)) in *.
    assert (HB : Rabs (B2R a1 * B2R a2) <= bpow radix2 ((k + 1) + (k + 1)))
      by (rewrite Rabs_mult, bpow_plus; apply Rmult_le_compat; auto using Rabs_pos; [apply B1|apply B2]).
    destruct (mult_err ((k + 1) + (k + 1)) a1 a2) as (B3 & e3 & h3 & He3 & Hh3 & E3);
      [lia|apply B1|apply B2|exact HB|]. set (a3 := nmul a1 a2) in *.
    assert (P4 : 0 < 1 + e4) by (apply Rabs_le_iff in He4; lra).
    assert (Hz4 : B2R a4 <> 0).
    { rewrite E4; apply Rmult_integral_contrapositive; split; [exact Hdy0|lra]. }
    set (z := d * (h / dy)).
    assert (Hz : Rabs z <= 2 * M).
    { unfold z; rewrite Rabs_mult; rewrite <- (Rmult_1_r (2 * M)); apply Rmult_le_compat; auto using Rabs_pos;
         [apply diff_bound; auto|rewrite Rabs_pos_eq; lra]. }
    set (Er := (1 + e1) * (1 + e2) * (1 + e3) / (1 + e4)).
    assert (HEr : Rabs (Er - 1) <= 5 * uro).
    { unfold Er. eapply Rle_trans; [apply (rel_div _ (3.01 * uro)); auto|lra].
      eapply Rle_trans; [apply (rel_mul _ (2.001 * uro)); auto; [|lra]|lra].
      eapply Rle_trans; [apply (rel_mul _ uro); auto; [|lra]|lra]. replace (1 + e1 - 1) with e1 by ring; auto. }
    set (hq := h3 / (dy * (1 + e4))).
    assert (Pdy : 0 < Rabs dy) by lra.
    assert (Hhq : Rabs hq <= m / 500).
    { unfold hq, Rdiv; rewrite Rabs_mult; apply Rle_trans with (eta * bpow radix2 251); [|lra].
      apply Rmult_le_compat; auto using Rabs_pos. rewrite Rabs_inv, Rabs_mult, (Rabs_pos_eq (1 + e4)) by lra.
      assert (0 < Rabs dy * (1 + e4)) by (apply Rmult_lt_0_compat; auto).
      apply (Rmult_le_reg_r (Rabs dy * (1 + e4))); auto.
      rewrite Rinv_l by lra.
      apply Rle_trans with (bpow radix2 251 * (bpow radix2 (-250) * / 2)).
      - rewrite <- Rmult_assoc, <- bpow_plus; change (bpow radix2 (251 + -250)) with 2; lra.
      - apply Rmult_le_compat_l; [apply bpow_ge_0|]; apply Rmult_le_compat; [apply bpow_ge_0|lra|auto|].
        apply Rabs_le_iff in He4; lra. }
    assert (Eq : B2R a3 / B2R a4 = z * Er + hq).
    { rewrite E3, E1, E2, E4; unfold z, Er, hq; field; split; [lra|auto]. }
    assert (HzE : Rabs (z * Er - z) <= 10 * m).
    { replace (z * Er - z) with (z * (Er - 1)) by ring; rewrite Rabs_mult;
         apply Rle_trans with (2 * M * (5 * uro)); [apply Rmult_le_compat; auto using Rabs_pos|unfold m; right; ring]. }
    destruct (div_err (k + 2) a3 a4) as (Ed & B5 & e5 & h5 & He5 & Hh5 & E5); [lia|apply B3|apply B4|exact Hz4| |].
    { rewrite Eq, bpow_shift; change (bpow radix2 2) with 4; fold M; apply Rabs_le_iff in Hz, HzE, Hhq; apply Rabs_le_iff; lra. }
    rewrite Ed; cbn [bind]; set (a5 := ndivraw a3 a4) in *; rewrite Eq in E5.
    assert (HQ : Rabs (B2R a5 - z) <= 13 * m).
    { rewrite E5; replace ((z * Er + hq) * (1 + e5) + h5 - z) with ((z * Er - z) + hq + ((z * Er + hq) * e5) + h5) by ring.
      assert (T1 : Rabs ((z * Er + hq) * e5) <= 2.1 * m).
      { rewrite Rabs_mult; apply Rle_trans with (2.1 * M * uro); [|unfold m; right; ring].
        apply Rmult_le_compat; auto using Rabs_pos; apply Rabs_le_iff in Hz, HzE, Hhq; apply Rabs_le_iff; lra. }
      apply Rabs_le_iff in T1, HzE, Hhq, Hh5; apply Rabs_le_iff; lra. }
    assert (HXM : Rabs (z + B2R (px u)) <= 3 * M)
           by (destruct Ux as (_ & Ux); fold M in Ux; apply Rabs_le_iff in Ux, Hz; apply Rabs_le_iff; lra).
    set (X := d * h / dy + B2R (px u)).
    assert (EX : X = z + B2R (px u)) by (unfold X, z; f_equal; field; auto).
    assert (HXM1 : Rabs X <= M).
    { rewrite EX; unfold z, d; destruct Ux as (_ & Ux), Vx as (_ & Vx); fold M in Ux, Vx; apply Rabs_le_iff in Ux, Vx; apply Rabs_le_iff.
      set (s := h / dy) in *; split; nra. }
    destruct (plus_err (k + 2) a5 (px u)) as (B6 & e6 & He6 & E6); [lia|apply B5|apply Ux| |].
    { rewrite bpow_shift; change (bpow radix2 2) with 4; fold M; apply Rabs_le_iff in HXM, HQ; apply Rabs_le_iff; lra. }
    exists (nadd a5 (px u)); split; [reflexivity|]; split; [apply B6|]; rewrite E6, EX.
    replace ((B2R a5 + B2R (px u)) * (1 + e6) - (z + B2R (px u)))
           with ((B2R a5 - z) + (B2R a5 - z) * e6 + (z + B2R (px u)) * e6) by ring.
    rewrite EX in HXM1. assert (T2 : Rabs ((z + B2R (px u)) * e6) <= m)
           by (rewrite Rabs_mult; unfold m; rewrite (Rmult_comm uro); apply Rmult_le_compat; auto using Rabs_pos).
    assert (T3 : Rabs ((B2R a5 - z) * e6) <= m).
    { rewrite Rabs_mult; apply Rle_trans with (13 * m * uro); [apply Rmult_le_compat; auto using Rabs_pos|].
      replace m with (m * 1) at 2 by ring; rewrite (Rmult_comm 13 m), Rmult_assoc; apply Rmult_le_compat_l; lra. }
    apply Rabs_le_iff in T2, T3, HQ; apply Rabs_le_iff; lra.
  Qed.

  Lemma crosses_agree p u v : bpt p -> bpt u -> bpt v -> side_ok (rp u) (rp v) ->
    crosses p u v = crosses (rp p) (rp u) (rp v) \/ near_segment (bpow radix2 (k - 49)) (rp u) (rp v) (rp p).
  Proof.
    intros Hp Hu Hv Hs. pose proof Hp as (Px & Py). pose proof Hu as (Ux & Uy). pose proof Hv as (Vx & Vy). unfold crosses.
    cbn [nltb NumR]. rewrite !nltb_B by (apply Px || apply Py || apply Ux || apply Uy || apply Vx || apply Vy).
    unfold rp. cbn [px py]. unfold side_ok, rp in Hs. cbn [px py] in Hs.
    pose proof (bpow_gt_0 radix2 (-250)) as P250.
    destruct (Bool.bool_dec (Rlt_bool (B2R (py p)) (B2R (py u))) (Rlt_bool (B2R (py p)) (B2R (py v)))) as [Hb|Hb].
    { rewrite Hb. rewrite Bool.eqb_reflx. now left. }
    apply Bool.eqb_false_iff in Hb as Hb'. rewrite Hb'. cbn [negb].
    set (X := (B2R (px v) - B2R (px u)) * (B2R (py p) - B2R (py u)) / (B2R (py v) - B2R (py u)) + B2R (px u)).
    assert (HY : (B2R (py p) < B2R (py u) /\ B2R (py v) <= B2R (py p)) \/ (B2R (py p) < B2R (py v) /\ B2R (py u) <= B2R (py p))).
    { revert Hb. repeat rcase; intros; try congruence; lra. }
    assert (Hdy : bpow radix2 (-250) <= Rabs (B2R (py v) - B2R (py u))) by (destruct Hs as [Hs|(Hs & _)]; [exact Hs|destruct HY; lra]).
    assert (Hdy0 : B2R (py v) - B2R (py u) <> 0) by (destruct HY; lra).
    assert (Hs01 : 0 <= (B2R (py p) - B2R (py u)) / (B2R (py v) - B2R (py u)) <= 1).
    { destruct HY as [(H1 & H2)|(H1 & H2)].
      - split; apply (Rmult_le_reg_r (B2R (py u) - B2R (py v))); try lra;
         replace ((B2R (py p) - B2R (py u)) / (B2R (py v) - B2R (py u)) * (B2R (py u) - B2R (py v)))
           with (B2R (py u) - B2R (py p)) by (field; auto); lra.
      - split; apply (Rmult_le_reg_r (B2R (py v) - B2R (py u))); try lra;
         replace ((B2R (py p) - B2R (py u)) / (B2R (py v) - B2R (py u)) * (B2R (py v) - B2R (py u)))
           with (B2R (py p) - B2R (py u)) by (field; auto); lra. }
    destruct (crossing_value p u v Hp Hu Hv Hdy Hs01) as (xh & -> & Fx & HX).
    rewrite nltb_B by (apply Px || auto).
    unfold ndiv; cbn [neqb nofZ nsub nmul ndivraw NumR].
    rewrite (Req_bool_false (B2R (py v) - B2R (py u)) 0) by lra. cbn [bind nltb nadd].
    match goal with |- _ = Ok (Rlt_bool _ ?Y) \/ _ => change Y with X end. fold X in HX.
    destruct (Rle_lt_dec (Rabs (B2R (px p) - X)) (16 * m)) as [Hn|Hn].
    - right; exists (Pt X (B2R (py p))); split.
      + exists ((B2R (py p) - B2R (py u)) / (B2R (py v) - B2R (py u))); split; [exact Hs01|].
        unfold at_; cbn [px py]; f_equal; [unfold X; field; auto|field; auto].
      + unfold dist2; cbn [px py]. replace (bpow radix2 (k - 49)) with (16 * m)
             by (rewrite m_eq'; replace (k - 49)%Z with (4 + (k - 53))%Z by lia; rewrite bpow_plus; reflexivity).
        apply Rabs_le_iff in Hn. nra.
    - left. f_equal. apply Rabs_le_iff in HX. unfold Rabs in Hn; destruct (Rcase_abs (B2R (px p) - X));
           repeat rcase; auto; exfalso; lra.
  Qed.

  (* ---------------------------------------------------------------- *)
  (** ** The tolerance test *)
  Lemma prod_err (a b : b64) (al be e1 e2 : R) : bounded (k + 1) a -> bounded (k + 1) b ->
    Rabs e1 <= uro -> Rabs e2 <= uro -> B2R a = al * (1 + e1) -> B2R b = be * (1 + e2) ->
    bounded (2 * k + 2) (nmul a b) /\ Rabs (B2R (nmul a b) - al * be) <= 3.01 * uro * Rabs (al * be) + eta.
  Proof.
    intros (Fa & Ba) (Fb & Bb) H1 H2 E1 E2. pose proof uro_small. pose proof uro_pos.
    assert (HB : Rabs (B2R a * B2R b) <= bpow radix2 (2 * k + 2)).
    { replace (2 * k + 2)%Z with ((k + 1) + (k + 1))%Z by lia.
      rewrite Rabs_mult, bpow_plus; apply Rmult_le_compat; auto using Rabs_pos. }
    destruct (mult_err (2 * k + 2) a b) as (B3 & e3 & h3 & He3 & Hh3 & E3); auto; [lia|]. split; auto.
    rewrite E3, E1, E2.
    replace (al * (1 + e1) * (be * (1 + e2)) * (1 + e3) + h3 - al * be)
      with (al * be * ((1 + e1) * (1 + e2) * (1 + e3) - 1) + h3) by ring.
    eapply Rle_trans; [apply Rabs_triang|]. apply Rplus_le_compat; auto.
    rewrite Rabs_mult, Rmult_comm. apply Rmult_le_compat_r; [apply Rabs_pos|].
    eapply Rle_trans; [apply (rel_mul _ (2.001 * uro)); auto; [|lra]|lra].
    eapply Rle_trans; [apply (rel_mul _ uro); auto; [|lra]|lra]. replace (1 + e1 - 1) with e1 by ring; auto.
  Qed.

  Lemma cross_err p u v : bpt p -> bpt u -> bpt v ->
    let A := cross_product (to_vector p u) (to_vector p v) in
    let Ux := B2R (px u) - B2R (px p) in let Uy := B2R (py u) - B2R (py p) in
    let Vx := B2R (px v) - B2R (px p) in let Vy := B2R (py v) - B2R (py p) in
    bounded (2 * k + 3) A
    /\ Rabs (B2R A - (Ux * Vy - Uy * Vx)) <= 4.1 * uro * (Rabs (Ux * Vy) + Rabs (Uy * Vx)) + 3 * eta.
  Proof.
    intros (Px & Py) (Hux & Huy) (Hvx & Hvy) A Ux Uy Vx Vy. pose proof uro_small. pose proof uro_pos. pose proof eta_pos.
    destruct (diff_err (px u) (px p) Hux Px) as (B1 & e1 & He1 & E1); fold Ux in E1.
    destruct (diff_err (py u) (py p) Huy Py) as (B2 & e2 & He2 & E2); fold Uy in E2.
    destruct (diff_err (px v) (px p) Hvx Px) as (B3 & e3 & He3 & E3); fold Vx in E3.
    destruct (diff_err (py v) (py p) Hvy Py) as (B4 & e4 & He4 & E4); fold Vy in E4.
    unfold A, cross_product, to_vector. cbn [px py].
    destruct (prod_err _ _ _ _ _ _ B1 B4 He1 He4 E1 E4) as (B5 & E5).
    destruct (prod_err _ _ _ _ _ _ B2 B3 He2 He3 E2 E3) as (B6 & E6).
    set (P := nmul (nsub (px u) (px p)) (nsub (py v) (py p))) in *.
    set (Q := nmul (nsub (py u) (py p)) (nsub (px v) (px p))) in *.
    destruct B5 as (F5 & B5), B6 as (F6 & B6).
    assert (HB : Rabs (B2R P - B2R Q) <= bpow radix2 (2 * k + 3)).
    { replace (2 * k + 3)%Z with (2 * k + 2 + 1)%Z by lia. rewrite bpow_shift. change (bpow radix2 1) with 2.
      apply Rabs_le_iff in B5, B6. apply Rabs_le_iff. lra. }
    destruct (minus_err (2 * k + 3) P Q) as (B7 & e7 & He7 & E7); auto; [lia|]. split; auto.
    rewrite E7. set (a := Ux * Vy) in *. set (b := Uy * Vx) in *.
    replace ((B2R P - B2R Q) * (1 + e7) - (a - b)) with ((B2R P - a) - (B2R Q - b) + (B2R P - B2R Q) * e7) by ring.
    assert (T : Rabs ((B2R P - B2R Q) * e7) <= uro * (1.01 * (Rabs a + Rabs b) + 2 * eta)).
    { rewrite Rabs_mult, Rmult_comm. apply Rmult_le_compat; auto using Rabs_pos.
      replace (B2R P - B2R Q) with ((B2R P - a) - (B2R Q - b) + (a - b)) by ring.
      pose proof (Rabs_pos a) as Pa. pose proof (Rabs_pos b) as Pb.
      assert (3.01 * uro * Rabs a <= 0.01 * Rabs a) by (apply Rmult_le_compat_r; lra).
      assert (3.01 * uro * Rabs b <= 0.01 * Rabs b) by (apply Rmult_le_compat_r; lra).
      pose proof (Rle_abs a). pose proof (Rle_abs b). pose proof (Rle_abs (- a)). pose proof (Rle_abs (- b)). rewrite Rabs_Ropp in H6, H7.
      apply Rabs_le_iff in E5, E6. apply Rabs_le_iff. lra. }
    assert (uro * (2 * eta) <= eta) by (rewrite <- (Rmult_1_l eta) at 2; rewrite <- Rmult_assoc; apply Rmult_le_compat_r; lra).
    assert (0 <= uro * (Rabs a + Rabs b)) by (apply Rmult_le_pos; [lra|]; pose proof (Rabs_pos a); pose proof (Rabs_pos b); lra).
    apply Rabs_le_iff in E5, E6, T. apply Rabs_le_iff. lra.
  Qed.

  Lemma wpd_bound (A tol : b64) u v : bpt u -> bpt v -> bounded (2 * k + 3) A -> bounded k tol -> 0 <= B2R tol ->
    within_perpendicular_distance A (to_vector u v) tol = true ->
    let dx := B2R (px v) - B2R (px u) in let dy := B2R (py v) - B2R (py u) in let t := B2R tol in
    B2R A * B2R A <= 1.001 * (t * t * (dx * dx + dy * dy)) + 4 * (t * t * eta) + 2 * (t * eta) + 3 * eta.
  Proof.
    intros (Hux & Huy) (Hvx & Hvy) (FA & BA) (Ft & Bt) Pt H dx dy t. pose proof uro_small. pose proof uro_pos. pose proof eta_pos.
    unfold within_perpendicular_distance, length_squared, to_vector in H. cbn [px py] in H.
    destruct (diff_err (px v) (px u) Hvx Hux) as (B1 & e1 & He1 & E1); fold dx in E1.
    destruct (diff_err (py v) (py u) Hvy Huy) as (B2 & e2 & He2 & E2); fold dy in E2.
    destruct (prod_err _ _ _ _ _ _ B1 B1 He1 He1 E1 E1) as (B3 & E3).
    destruct (prod_err _ _ _ _ _ _ B2 B2 He2 He2 E2 E2) as (B4 & E4).
    set (P := nmul (nsub (px v) (px u)) (nsub (px v) (px u))) in *.
    set (Q := nmul (nsub (py v) (py u)) (nsub (py v) (py u))) in *.
    destruct B3 as (F3 & B3), B4 as (F4 & B4).
    assert (HB : Rabs (B2R P + B2R Q) <= bpow radix2 (2 * k + 3)).
    { replace (2 * k + 3)%Z with (2 * k + 2 + 1)%Z by lia. rewrite bpow_shift. change (bpow radix2 1) with 2.
      apply Rabs_le_iff in B3, B4. apply Rabs_le_iff. lra. }
    destruct (plus_err (2 * k + 3) P Q) as ((F5 & B5) & e5 & He5 & E5); auto; [lia|].
    set (L := nadd P Q) in *. set (q := dx * dx + dy * dy).
    pose proof (Rle_0_sqr dx) as Sx. pose proof (Rle_0_sqr dy) as Sy. unfold Rsqr in Sx, Sy.
    assert (HL : Rabs (B2R L) <= 1.00001 * q + 3 * eta).
    { rewrite E5, Rabs_mult.
      rewrite (Rabs_pos_eq (dx * dx)) in E3 by auto. rewrite (Rabs_pos_eq (dy * dy)) in E4 by auto.
      assert (3.01 * uro * (dx * dx) <= 0.00001 / 2 * (dx * dx)) by (apply Rmult_le_compat_r; lra).
      assert (3.01 * uro * (dy * dy) <= 0.00001 / 2 * (dy * dy)) by (apply Rmult_le_compat_r; lra).
      apply Rle_trans with ((1.000005 * q + 2 * eta) * (1 + uro)).
      - apply Rmult_le_compat; try apply Rabs_pos.
        + unfold q. apply Rabs_le_iff in E3, E4. apply Rabs_le_iff. lra.
        + apply Rabs_le_iff in He5. apply Rabs_le_iff. lra.
      - assert (0 <= q) by (unfold q; lra).
        assert ((1.000005 * q + 2 * eta) * uro <= (1.000005 * q + 2 * eta) * / 1000000) by (apply Rmult_le_compat_l; lra). lra. }
    assert (HB6 : Rabs (B2R tol * B2R L) <= bpow radix2 (k + (2 * k + 3))).
    { rewrite Rabs_mult, bpow_plus. apply Rmult_le_compat; auto using Rabs_pos. }
    destruct (mult_err (k + (2 * k + 3)) tol L) as ((F6 & B6) & e6 & h6 & He6 & Hh6 & E6); auto; [lia|].
    set (R1 := nmul tol L) in *. fold t in E6.
    assert (HB7 : Rabs (B2R R1 * B2R tol) <= bpow radix2 (k + (2 * k + 3) + k)).
    { rewrite Rabs_mult, bpow_plus. apply Rmult_le_compat; auto using Rabs_pos. }
    destruct (mult_err (k + (2 * k + 3) + k) R1 tol) as ((F7 & B7) & e7 & h7 & He7 & Hh7 & E7); auto; [lia|].
    set (R2 := nmul R1 tol) in *. fold t in E7, Pt.
    assert (HBA : Rabs (B2R A * B2R A) <= bpow radix2 ((2 * k + 3) + (2 * k + 3))).
    { rewrite Rabs_mult, bpow_plus. apply Rmult_le_compat; auto using Rabs_pos. }
    destruct (mult_err ((2 * k + 3) + (2 * k + 3)) A A) as ((F8 & B8) & e8 & h8 & He8 & Hh8 & E8); auto; [lia|].
    rewrite nltb_B in H by auto. rb.
    rewrite E8, E7, E6 in H.
    apply Rabs_le_iff in He8, Hh8, Hh7, He7, He6, Hh6.
    set (a := B2R A * B2R A) in *. assert (Ha : 0 <= a) by (unfold a; apply Rle_0_sqr).
    assert (G2 : a * (1 + e8) >= a * (1 - uro)) by (apply Rle_ge, Rmult_le_compat_l; lra).
    assert (Hq : 0 <= q) by (unfold q; lra).
    set (Lb := 1.00001 * q + 3 * eta) in *.
    assert (HLb : 0 <= Lb) by (unfold Lb; lra).
    assert (G3 : t * B2R L * (1 + e6) + h6 <= t * Lb * 1.000001 + eta).
    { apply Rplus_le_compat; [|lra]. eapply Rle_trans; [apply Rle_abs|]. rewrite Rabs_mult.
      apply Rmult_le_compat; try apply Rabs_pos.
      - rewrite Rabs_mult, (Rabs_pos_eq t) by auto. apply Rmult_le_compat_l; auto.
      - apply Rabs_le_iff. lra. }
    assert (Htl : 0 <= t * Lb) by (apply Rmult_le_pos; auto).
    assert (G4 : (t * B2R L * (1 + e6) + h6) * t <= (t * Lb * 1.000001 + eta) * t) by (apply Rmult_le_compat_r; auto).
    assert (G5 : (t * B2R L * (1 + e6) + h6) * t * (1 + e7) <= (t * Lb * 1.000001 + eta) * t * 1.000001).
    { eapply Rle_trans; [apply Rmult_le_compat_r; [lra|exact G4]|]. apply Rmult_le_compat_l; [|lra].
      apply Rmult_le_pos; auto. lra. }
    assert (Htq : 0 <= t * t * q) by (apply Rmult_le_pos; auto; apply Rle_0_sqr).
    assert (Hte : 0 <= t * t * eta) by (apply Rmult_le_pos; [apply Rle_0_sqr|lra]).
    assert (Ht1 : 0 <= t * eta) by (apply Rmult_le_pos; lra).
    assert (G6 : (t * Lb * 1.000001 + eta) * t * 1.000001 <= 1.0001 * (t * t * q) + 3.5 * (t * t * eta) + 1.5 * (t * eta)).
    { unfold Lb. replace ((t * (1.00001 * q + 3 * eta) * 1.000001 + eta) * t * 1.000001)
        with (1.00001 * 1.000001 * 1.000001 * (t * t * q) + 3 * 1.000001 * 1.000001 * (t * t * eta) + 1.000001 * (t * eta)) by ring. lra. }
    assert (G7 : a * (1 - uro) >= a * (1 - / 1000000)) by (apply Rle_ge, Rmult_le_compat_l; lra).
    lra.
  Qed.

  (** exact geometry: the first coordinate is the longer direction *)
  Lemma near_core px_ py_ ux uy vx vy A t : 0 <= t ->
    (ux <= px_ <= vx \/ vx <= px_ <= ux) -> Rabs (uy - py_) <= 2 * M -> Rabs (vy - py_) <= 2 * M ->
    bpow radix2 (-251) <= Rabs (vx - ux) -> Rabs (vy - uy) <= 1.001 * Rabs (vx - ux) ->
    Rabs (A - ((ux - px_) * (vy - py_) - (uy - py_) * (vx - px_)))
      <= 4.1 * uro * (Rabs ((ux - px_) * (vy - py_)) + Rabs ((uy - py_) * (vx - px_))) + 3 * eta ->
    A * A <= 1.001 * (t * t * ((vx - ux) * (vx - ux) + (vy - uy) * (vy - uy))) + 4 * (t * t * eta) + 2 * (t * eta) + 3 * eta ->
    exists s, 0 <= s <= 1 /\ px_ = ux + s * (vx - ux) /\ Rabs (py_ - (uy + s * (vy - uy))) <= 2 * t + 32 * m.
  Proof.
    intros Pt Hx Hu Hv Hd Hdy HA HA2. pose proof uro_small. pose proof uro_pos. pose proof eta_pos as Pe.
    pose proof m_pos' as Pm. pose proof M_pos' as PM.
    set (dx := vx - ux) in *. set (dy := vy - uy) in *. set (D := Rabs dx) in *.
    pose proof (bpow_gt_0 radix2 (-251)) as P251. assert (PD : 0 < D) by lra.
    assert (Hdx : dx <> 0) by (intros E; unfold D in PD; rewrite E, Rabs_R0 in PD; lra).
    exists ((px_ - ux) / dx).
    assert (Hs : 0 <= (px_ - ux) / dx <= 1).
    { assert (E : (px_ - ux) / dx * dx = px_ - ux) by (field; auto).
      unfold dx in *. destruct Hx as [Hx|Hx].
      - assert (0 < vx - ux) by lra. split; apply (Rmult_le_reg_r (vx - ux)); lra.
      - assert (0 < - (vx - ux)) by lra. split; apply (Rmult_le_reg_r (- (vx - ux))); try lra; rewrite Ropp_mult_distr_r_reverse, E; lra. }
    split; [exact Hs|]. split; [field; auto|].
    set (C := (ux - px_) * (vy - py_) - (uy - py_) * (vx - px_)) in *.
    assert (EC : (py_ - (uy + (px_ - ux) / dx * dy)) * dx = C).
    { unfold C, dy. replace vx with (ux + dx) by (unfold dx; ring). field. auto. }
    apply (Rmult_le_reg_r D); [auto|]. unfold D. rewrite <- Rabs_mult, EC. fold D.
    (* the rounding errors of the cross product *)
    assert (HUx : Rabs (ux - px_) <= D) by (unfold D, dx, Rabs; repeat destruct Rcase_abs; lra).
    assert (HVx : Rabs (vx - px_) <= D) by (unfold D, dx, Rabs; repeat destruct Rcase_abs; lra).
    assert (HS : Rabs ((ux - px_) * (vy - py_)) + Rabs ((uy - py_) * (vx - px_)) <= 4 * M * D).
    { rewrite !Rabs_mult. assert (Rabs (ux - px_) * Rabs (vy - py_) <= D * (2 * M)) by (apply Rmult_le_compat; auto using Rabs_pos).
      assert (Rabs (uy - py_) * Rabs (vx - px_) <= 2 * M * D) by (apply Rmult_le_compat; auto using Rabs_pos). lra. }
    assert (HuS : 4.1 * uro * (Rabs ((ux - px_) * (vy - py_)) + Rabs ((uy - py_) * (vx - px_))) <= 16.4 * m * D).
    { replace (16.4 * m * D) with (4.1 * uro * (4 * M * D)) by (unfold m; lra). apply Rmult_le_compat_l; lra. }
    (* underflow *)
    assert (K1 : bpow radix2 (-500) <= D * (m / 1000)).
    { apply Rle_trans with (bpow radix2 (-251) * (m / 1000)).
      - rewrite m_eq'. apply Rle_trans with (bpow radix2 (-251) * bpow radix2 (-214)).
        + rewrite <- bpow_plus. apply bpow_le. lia.
        + apply Rmult_le_compat_l; [lra|]. apply Rle_trans with (bpow radix2 (k - 63)); [apply bpow_le; lia|].
          replace (k - 53)%Z with (10 + (k - 63))%Z by lia. rewrite (bpow_plus radix2 10).
          pose proof (bpow_gt_0 radix2 (k - 63)). change (bpow radix2 10) with 1024. lra.
      - apply Rmult_le_compat_r; lra. }
    assert (K2 : 1000 * eta <= bpow radix2 (-500) * bpow radix2 (-500)).
    { apply Rle_trans with (bpow radix2 10 * eta); [change (bpow radix2 10) with 1024; lra|].
      unfold eta. rewrite <- !bpow_plus. apply bpow_le. lia. }
    assert (K3 : 1000 * eta <= bpow radix2 (-500)).
    { eapply Rle_trans; [exact K2|]. rewrite <- bpow_plus. apply bpow_le. lia. }
    assert (K4 : 1000 * eta <= D * D).
    { eapply Rle_trans; [exact K2|]. apply Rmult_le_compat; try apply bpow_ge_0;
        (apply Rle_trans with (bpow radix2 (-251)); [apply bpow_le; lia|auto]). }
    set (w := bpow radix2 (-500)) in *. assert (Pw : 0 < w) by apply bpow_gt_0.
    (* the size of the computed cross product *)
    assert (HAb : Rabs A <= 1.9 * t * D + w).
    { apply Rabs_le_iff. assert (PtD : 0 <= t * D) by (apply Rmult_le_pos; lra).
      assert (HDD : dx * dx = D * D) by (unfold D; rewrite <- Rabs_mult, Rabs_pos_eq; auto; apply Rle_0_sqr).
      assert (Hdd : dy * dy <= 1.01 * (D * D)).
      { replace (dy * dy) with (Rabs dy * Rabs dy) by (rewrite <- Rabs_mult, Rabs_pos_eq; auto; apply Rle_0_sqr).
        apply Rle_trans with (1.001 * D * (1.001 * D)); [apply Rmult_le_compat; auto using Rabs_pos|].
        assert (0 <= D * D) by apply Rle_0_sqr. lra. }
      assert (PT : 0 <= t * t) by apply Rle_0_sqr.
      assert (Q1 : t * t * (dx * dx + dy * dy) <= t * t * (2.01 * (D * D))) by (apply Rmult_le_compat_l; lra).
      assert (Q2 : t * t * (1000 * eta) <= t * t * (D * D)) by (apply Rmult_le_compat_l; lra).
      assert (Q3 : 2 * t <= 1 + t * t) by (pose proof (Rle_0_sqr (1 - t)) as Z; unfold Rsqr in Z; lra).
      assert (Q4 : 2 * t * eta <= (1 + t * t) * eta) by (apply Rmult_le_compat_r; lra).
      assert (PtD2 : 0 <= t * D * w) by (apply Rmult_le_pos; lra).
      assert (HA3 : A * A <= (1.9 * t * D + w) * (1.9 * t * D + w)).
      { replace ((1.9 * t * D + w) * (1.9 * t * D + w)) with (3.61 * (t * t * (D * D)) + 3.8 * (t * D * w) + w * w) by lra.
        assert (0 <= t * t * eta) by (apply Rmult_le_pos; lra). assert (0 <= t * t * (D * D)) by (apply Rmult_le_pos; auto; apply Rle_0_sqr). lra. }
      assert (PB : 0 <= 1.9 * t * D + w) by lra.
      split; apply Rnot_lt_le; intros Hc; nra. }
    assert (HC : Rabs C <= Rabs A + 16.4 * m * D + 3 * eta).
    { replace C with (A - (A - C)) by ring. eapply Rle_trans; [apply Rabs_triang|]. rewrite Rabs_Ropp. lra. }
    assert (0 <= t * D) by (apply Rmult_le_pos; lra). assert (0 < m * D) by (apply Rmult_lt_0_compat; lra).
    lra.
  Qed.

  Lemma nmin_B (x y : b64) : is_finite x = true -> is_finite y = true -> B2R (nmin x y) = Rmin (B2R x) (B2R y) /\ is_finite (nmin x y) = true.
  Proof.
    intros. unfold nmin. rewrite nltb_B by auto. unfold Rmin.
    case Rlt_bool_spec; intros; destruct Rle_dec; split; auto; lra.
  Qed.
  Lemma nmax_B (x y : b64) : is_finite x = true -> is_finite y = true -> B2R (nmax x y) = Rmax (B2R x) (B2R y) /\ is_finite (nmax x y) = true.
  Proof.
    intros. unfold nmax. rewrite nltb_B by auto. unfold Rmax.
    case Rlt_bool_spec; intros; destruct Rle_dec; split; auto; lra.
  Qed.

  Lemma nabs_B (x : b64) : B2R (nabs x) = Rabs (B2R x) /\ is_finite (nabs x) = is_finite x.
  Proof. split; [apply B2R_Babs|apply is_finite_Babs]. Qed.

  (** [in_bounds] up to rounding of the comparison of the two extents *)
  Lemma in_bounds_cases p u v : bpt p -> bpt u -> bpt v ->
    let dx := B2R (px v) - B2R (px u) in let dy := B2R (py v) - B2R (py u) in
    (Rabs dy <= 1.001 * Rabs dx
     /\ (in_bounds p u v = true <-> Rmin (B2R (px u)) (B2R (px v)) <= B2R (px p) <= Rmax (B2R (px u)) (B2R (px v))))
    \/ (Rabs dx <= 1.001 * Rabs dy
        /\ (in_bounds p u v = true <-> Rmin (B2R (py u)) (B2R (py v)) <= B2R (py p) <= Rmax (B2R (py u)) (B2R (py v)))).
  Proof.
    intros (Px & Py) (Ux & Uy) (Vx & Vy) dx dy. unfold in_bounds.
    pose proof uro_small as Su. pose proof uro_pos as Pu.
    assert (G : forall a b : b64, bounded k a -> bounded k b ->
       exists w, Rabs (w - Rabs (B2R b - B2R a)) <= uro * Rabs (B2R b - B2R a)
         /\ B2R (nabs (nsub (nmax a b) (nmin a b))) = w /\ is_finite (nabs (nsub (nmax a b) (nmin a b))) = true).
    { intros a b Ba Bb. destruct (nmin_B a b (proj1 Ba) (proj1 Bb)) as (E1 & F1), (nmax_B a b (proj1 Ba) (proj1 Bb)) as (E2 & F2).
      assert (B1 : bounded k (nmin a b)) by (unfold nmin; destruct (nltb b a); auto).
      assert (B2 : bounded k (nmax a b)) by (unfold nmax; destruct (nltb a b); auto).
      destruct (diff_err _ _ B2 B1) as ((F & _) & e & He & E). destruct (nabs_B (nsub (nmax a b) (nmin a b))) as (A1 & A2).
      rewrite A1, A2, E, E1, E2. eexists. split; [|split; [reflexivity|exact F]].
      assert (Em : Rmax (B2R a) (B2R b) - Rmin (B2R a) (B2R b) = Rabs (B2R b - B2R a)).
      { unfold Rmax, Rmin, Rabs. repeat destruct Rle_dec; destruct Rcase_abs; lra. }
      rewrite Em, Rabs_mult, Rabs_Rabsolu. apply Rabs_le_iff in He.
      rewrite (Rabs_pos_eq (1 + e)) by lra. replace (Rabs (B2R b - B2R a) * (1 + e) - Rabs (B2R b - B2R a)) with (Rabs (B2R b - B2R a) * e) by ring.
      rewrite Rabs_mult, Rabs_Rabsolu, Rmult_comm. apply Rmult_le_compat_r; [apply Rabs_pos|]. apply Rabs_le_iff. lra. }
    destruct (G (px u) (px v) Ux Vx) as (wx & Hwx & Ex & Fx). destruct (G (py u) (py v) Uy Vy) as (wy & Hwy & Ey & Fy).
    fold dx in Hwx. fold dy in Hwy. cbv zeta.
    destruct (nmin_B (px u) (px v)) as (N1 & N1'); [apply Ux|apply Vx|]. destruct (nmax_B (px u) (px v)) as (N2 & N2'); [apply Ux|apply Vx|].
    destruct (nmin_B (py u) (py v)) as (N3 & N3'); [apply Uy|apply Vy|]. destruct (nmax_B (py u) (py v)) as (N4 & N4'); [apply Uy|apply Vy|].
    rewrite !nleb_B by (auto; apply Px || apply Py). rewrite Ex, Ey, N1, N2, N3, N4.
    pose proof (Rabs_pos dx) as Pdx. pose proof (Rabs_pos dy) as Pdy.
    assert (uro * Rabs dx <= 0.0001 * Rabs dx) by (apply Rmult_le_compat_r; lra).
    assert (uro * Rabs dy <= 0.0001 * Rabs dy) by (apply Rmult_le_compat_r; lra).
    apply Rabs_le_iff in Hwx, Hwy.
    destruct (Rle_bool_spec wy wx) as [Hw|Hw]; cbn [andb orb negb].
    - left. split; [lra|]. rewrite orb_false_r. rewrite andb_true_iff, !Rleb_iff. tauto.
    - right. split; [lra|]. rewrite andb_true_iff, !Rleb_iff. tauto.
  Qed.
  Lemma in_bounds_B p u v : bpt p -> bpt u -> bpt v -> in_bounds p u v = true ->
    let dx := B2R (px v) - B2R (px u) in let dy := B2R (py v) - B2R (py u) in
    (Rabs dy <= 1.001 * Rabs dx /\ Rmin (B2R (px u)) (B2R (px v)) <= B2R (px p) <= Rmax (B2R (px u)) (B2R (px v)))
    \/ (Rabs dx <= 1.001 * Rabs dy /\ Rmin (B2R (py u)) (B2R (py v)) <= B2R (py p) <= Rmax (B2R (py u)) (B2R (py v))).
  Proof. intros Hp Hu Hv H dx dy. destruct (in_bounds_cases p u v Hp Hu Hv) as [(A & B)|(A & B)]; [left|right]; tauto. Qed.

  Lemma near_sound p u v tol : bpt p -> bpt u -> bpt v -> bounded k tol -> 0 <= B2R tol -> side_ok (rp u) (rp v) ->
    within_perpendicular_distance (cross_product (to_vector p u) (to_vector p v)) (to_vector u v) tol = true ->
    in_bounds p u v = true -> near_segment (2 * B2R tol + bpow radix2 (k - 48)) (rp u) (rp v) (rp p).
  Proof.
    intros Hp Hu Hv Bt Pt Hs Hw Hi.
    destruct (cross_err p u v Hp Hu Hv) as (BA & HA). pose proof (wpd_bound _ tol u v Hu Hv BA Bt Pt Hw) as HA2. cbv zeta in HA, HA2.
    set (A := B2R (cross_product (to_vector p u) (to_vector p v))) in *.
    pose proof (in_bounds_B p u v Hp Hu Hv Hi) as HB. cbv zeta in HB.
    destruct Hp as (Px & Py), Hu as (Ux & Uy), Hv as (Vx & Vy).
    assert (E32 : bpow radix2 (k - 48) = 32 * m).
    { rewrite m_eq'. replace (k - 48)%Z with (5 + (k - 53))%Z by lia. rewrite bpow_plus. reflexivity. }
    pose proof (bpow_gt_0 radix2 (-250)) as P250.
    assert (E251 : bpow radix2 (-250) = 2 * bpow radix2 (-251)) by (change (-250)%Z with (1 + -251)%Z; rewrite bpow_plus; reflexivity).
    unfold side_ok in Hs. cbn [px py rp] in Hs. pose proof m_pos' as Pm.
    pose proof (Rabs_pos (B2R (px v) - B2R (px u))) as Px0. pose proof (Rabs_pos (B2R (py v) - B2R (py u))) as Py0.
    rewrite E32. destruct HB as [(H1 & H2)|(H1 & H2)].
    - destruct (near_core (B2R (px p)) (B2R (py p)) (B2R (px u)) (B2R (py u)) (B2R (px v)) (B2R (py v)) A (B2R tol)) as (s & Hs1 & Ex & Ey); auto.
      + revert H2. unfold Rmin, Rmax. repeat destruct Rle_dec; lra.
      + now apply diff_bound. + now apply diff_bound.
      + destruct Hs as [Hs|(_ & Hs)]; lra.
      + exists (at_ (rp u) (rp v) s). split; [exists s; auto|]. unfold dist2, at_, rp. cbn [px py].
        rewrite <- Ex. apply Rabs_le_iff in Ey. set (e := B2R (py p) - _) in *. nra.
    - destruct (near_core (B2R (py p)) (B2R (px p)) (B2R (py u)) (B2R (px u)) (B2R (py v)) (B2R (px v)) (- A) (B2R tol)) as (s & Hs1 & Ey & Ex); auto.
      + revert H2. unfold Rmin, Rmax. repeat destruct Rle_dec; lra.
      + now apply diff_bound. + now apply diff_bound.
      + destruct Hs as [Hs|(Hs & Hs')]; [lra|]. rewrite Hs in H1. replace (B2R (py u) - B2R (py u)) with 0 in H1 by ring. rewrite Rabs_R0 in H1. lra.
      + rewrite (Rmult_comm (B2R (py u) - B2R (py p))), (Rmult_comm (B2R (px u) - B2R (px p))).
        match goal with |- Rabs ?x <= _ => match type of HA with Rabs ?y <= _ => replace x with (- y) by ring end end.
        rewrite Rabs_Ropp. rewrite (Rplus_comm (Rabs _)), (Rmult_comm (B2R (py v) - B2R (py p))). 
        rewrite (Rmult_comm (B2R (px v) - B2R (px p))). exact HA.
      + rewrite Rmult_opp_opp. clear - HA2. lra.
      + exists (at_ (rp u) (rp v) s). split; [exists s; auto|]. unfold dist2, at_, rp. cbn [px py].
        rewrite <- Ey. apply Rabs_le_iff in Ex. set (e := B2R (px p) - _) in *. nra.
  Qed.

  (* ---------------------------------------------------------------- *)
  (** ** Points next to a side pass the test *)
  Lemma wpd_true (A tol : b64) u v : bpt u -> bpt v -> bounded (2 * k + 3) A -> bounded k tol -> 64 * m <= B2R tol ->
    let dx := B2R (px v) - B2R (px u) in let dy := B2R (py v) - B2R (py u) in
    let q := dx * dx + dy * dy in
    m * m <= q -> B2R A * B2R A <= 1800 * (m * m * q) ->
    within_perpendicular_distance A (to_vector u v) tol = true.
  Proof.
    intros (Hux & Huy) (Hvx & Hvy) (FA & BA) (Ft & Bt) Ht dx dy q Hq HA. pose proof uro_small. pose proof uro_pos. pose proof eta_pos.
    pose proof m_pos' as Pm. set (t := B2R tol) in *.
    unfold within_perpendicular_distance, length_squared, to_vector. cbn [px py].
    destruct (diff_err (px v) (px u) Hvx Hux) as (B1 & e1 & He1 & E1); fold dx in E1.
    destruct (diff_err (py v) (py u) Hvy Huy) as (B2 & e2 & He2 & E2); fold dy in E2.
    destruct (prod_err _ _ _ _ _ _ B1 B1 He1 He1 E1 E1) as (B3 & E3).
    destruct (prod_err _ _ _ _ _ _ B2 B2 He2 He2 E2 E2) as (B4 & E4).
    set (P := nmul (nsub (px v) (px u)) (nsub (px v) (px u))) in *.
    set (Q := nmul (nsub (py v) (py u)) (nsub (py v) (py u))) in *.
    destruct B3 as (F3 & B3), B4 as (F4 & B4).
    assert (HB : Rabs (B2R P + B2R Q) <= bpow radix2 (2 * k + 3)).
    { replace (2 * k + 3)%Z with (2 * k + 2 + 1)%Z by lia. rewrite bpow_shift. change (bpow radix2 1) with 2.
      apply Rabs_le_iff in B3, B4. apply Rabs_le_iff. lra. }
    destruct (plus_err (2 * k + 3) P Q) as ((F5 & B5) & e5 & He5 & E5); auto; [lia|].
    set (L := nadd P Q) in *.
    pose proof (Rle_0_sqr dx) as Sx. pose proof (Rle_0_sqr dy) as Sy. unfold Rsqr in Sx, Sy.
    (* eta is negligible *)
    assert (Pmm : 0 < m * m) by (apply Rmult_lt_0_compat; auto).
    assert (K1 : 1000 * eta <= m * m).
    { rewrite m_eq'. apply Rle_trans with (bpow radix2 10 * eta); [change (bpow radix2 10) with 1024; lra|].
      unfold eta. rewrite <- !bpow_plus. apply bpow_le. lia. }
    assert (K2 : 1000 * eta <= m * m * (m * m)).
    { rewrite m_eq'. apply Rle_trans with (bpow radix2 10 * eta); [change (bpow radix2 10) with 1024; lra|].
      unfold eta. rewrite <- !bpow_plus. apply bpow_le. lia. }
    assert (K3 : 1000 * (eta * M) <= m * m * (m * m)).
    { rewrite m_eq'. apply Rle_trans with (bpow radix2 10 * (eta * M)).
      - assert (0 < eta * M) by (apply Rmult_lt_0_compat; [auto|apply M_pos']). change (bpow radix2 10) with 1024. lra.
      - unfold eta, M. rewrite <- !bpow_plus. apply bpow_le. lia. }
    assert (K4 : m * m * (m * m) <= m * m * q) by (apply Rmult_le_compat_l; lra).
    assert (HL : B2R L >= 0.997 * q).
    { rewrite E5.
      rewrite (Rabs_pos_eq (dx * dx)) in E3 by auto. rewrite (Rabs_pos_eq (dy * dy)) in E4 by auto.
      assert (3.01 * uro * (dx * dx) <= 0.0001 * (dx * dx)) by (apply Rmult_le_compat_r; lra).
      assert (3.01 * uro * (dy * dy) <= 0.0001 * (dy * dy)) by (apply Rmult_le_compat_r; lra).
      apply Rabs_le_iff in E3, E4, He5.
      assert (0.9999 * q - 2 * eta <= B2R P + B2R Q) by (unfold q; lra).
      apply Rle_ge. apply Rle_trans with ((0.9999 * q - 2 * eta) * (1 - / 1000000)); [lra|].
      apply Rmult_le_compat; lra. }
    assert (HB6 : Rabs (B2R tol * B2R L) <= bpow radix2 (k + (2 * k + 3))).
    { rewrite Rabs_mult, bpow_plus. apply Rmult_le_compat; auto using Rabs_pos. }
    destruct (mult_err (k + (2 * k + 3)) tol L) as ((F6 & B6) & e6 & h6 & He6 & Hh6 & E6); auto; [lia|].
    set (R1 := nmul tol L) in *. fold t in E6.
    assert (HB7 : Rabs (B2R R1 * B2R tol) <= bpow radix2 (k + (2 * k + 3) + k)).
    { rewrite Rabs_mult, bpow_plus. apply Rmult_le_compat; auto using Rabs_pos. }
    destruct (mult_err (k + (2 * k + 3) + k) R1 tol) as ((F7 & B7) & e7 & h7 & He7 & Hh7 & E7); auto; [lia|].
    set (R2 := nmul R1 tol) in *. fold t in E7.
    assert (HBA : Rabs (B2R A * B2R A) <= bpow radix2 ((2 * k + 3) + (2 * k + 3))).
    { rewrite Rabs_mult, bpow_plus. apply Rmult_le_compat; auto using Rabs_pos. }
    destruct (mult_err ((2 * k + 3) + (2 * k + 3)) A A) as ((F8 & B8) & e8 & h8 & He8 & Hh8 & E8); auto; [lia|].
    rewrite nltb_B by auto. apply Rlt_bool_true. rewrite E8, E7, E6.
    apply Rabs_le_iff in He8, Hh8, Hh7, He7, He6, Hh6.
    assert (HtM : t <= M) by (unfold t; eapply Rle_trans; [apply Rle_abs|exact Bt]).
    set (a := B2R A * B2R A) in *. assert (Ha : 0 <= a) by (unfold a; apply Rle_0_sqr).
    assert (G1 : a * (1 + e8) <= a * 1.001) by (apply Rmult_le_compat_l; lra).
    assert (G2 : t * (0.997 * q) <= t * B2R L) by (apply Rmult_le_compat_l; lra).
    assert (G3 : t * (0.997 * q) * 0.999 <= t * B2R L * (1 + e6)).
    { apply Rmult_le_compat; try lra. apply Rmult_le_pos; lra. }
    assert (G4 : (t * (0.997 * q) * 0.999 - eta) * t <= (t * B2R L * (1 + e6) + h6) * t) by (apply Rmult_le_compat_r; lra).
    assert (G5 : eta * t <= eta * M) by (apply Rmult_le_compat_l; lra).
    assert (G6 : 64 * m * (64 * m) <= t * t) by (apply Rmult_le_compat; lra).
    assert (G7 : 64 * m * (64 * m) * q <= t * t * q) by (apply Rmult_le_compat_r; lra).
    set (mq := m * m * q) in *.
    assert (G8 : 4000 * mq <= (t * (0.997 * q) * 0.999 - eta) * t).
    { replace ((t * (0.997 * q) * 0.999 - eta) * t) with (0.997 * 0.999 * (t * t * q) - eta * t) by lra.
      replace (64 * m * (64 * m) * q) with (4096 * mq) in G7 by (unfold mq; lra). lra. }
    assert (G9 : (4000 * mq) * 0.999 <= (t * B2R L * (1 + e6) + h6) * t * (1 + e7)).
    { apply Rmult_le_compat; try lra. }
    lra.
  Qed.

  (** a point next to a side but away from its ends is between the ends *)
  Lemma range_core u v u' v' p p' s : 0 <= s <= 1 -> u <= v ->
    Rabs (p - (u + s * (v - u))) <= 16 * m -> Rabs (p' - (u' + s * (v' - u'))) <= 16 * m ->
    Rabs (v' - u') <= 1.001 * Rabs (v - u) ->
    (64 * m) * (64 * m) < (p - u) * (p - u) + (p' - u') * (p' - u') ->
    (64 * m) * (64 * m) < (p - v) * (p - v) + (p' - v') * (p' - v') -> u <= p <= v.
  Proof.
    intros Hs Huv He He' Hd Du Dv. pose proof m_pos' as Pm.
    assert (Z : forall x r, 0 <= r -> - r <= x <= r -> x * x <= r * r).
    { intros x r Hr Hx. assert (0 <= (r - x) * (r + x)) by (apply Rmult_le_pos; lra). lra. }
    assert (Zf : forall x y, - (16 * m) <= x <= 16 * m -> - (34 * m) <= y <= 34 * m -> (64 * m) * (64 * m) < x * x + y * y -> False).
    { intros x y Hx Hy Hc. pose proof (Z x (16 * m) ltac:(lra) Hx). pose proof (Z y (34 * m) ltac:(lra) Hy).
      assert (0 < m * m) by (apply Rmult_lt_0_compat; auto). lra. }
    rewrite (Rabs_pos_eq (v - u)) in Hd by lra. apply Rabs_le_iff in He, He'. apply Rabs_le_iff in Hd.
    assert (P1 : 0 <= s * (v - u)) by (apply Rmult_le_pos; lra).
    assert (P2 : 0 <= (1 - s) * (v - u)) by (apply Rmult_le_pos; lra).
    assert (Q1 : s * (v' - u') <= s * (1.001 * (v - u))) by (apply Rmult_le_compat_l; lra).
    assert (Q2 : s * - (1.001 * (v - u)) <= s * (v' - u')) by (apply Rmult_le_compat_l; lra).
    assert (Q3 : (1 - s) * (v' - u') <= (1 - s) * (1.001 * (v - u))) by (apply Rmult_le_compat_l; lra).
    assert (Q4 : (1 - s) * - (1.001 * (v - u)) <= (1 - s) * (v' - u')) by (apply Rmult_le_compat_l; lra).
    split; apply Rnot_lt_le; intros Hc.
    - apply (Zf (p - u) (p' - u')); auto; lra.
    - apply (Zf (p - v) (p' - v')); auto; lra.
  Qed.
  Lemma range_core' u v u' v' p p' s : 0 <= s <= 1 ->
    Rabs (p - (u + s * (v - u))) <= 16 * m -> Rabs (p' - (u' + s * (v' - u'))) <= 16 * m ->
    Rabs (v' - u') <= 1.001 * Rabs (v - u) ->
    (64 * m) * (64 * m) < (p - u) * (p - u) + (p' - u') * (p' - u') ->
    (64 * m) * (64 * m) < (p - v) * (p - v) + (p' - v') * (p' - v') -> Rmin u v <= p <= Rmax u v.
  Proof.
    intros Hs He He' Hd Du Dv. destruct (Rle_dec u v) as [H|H].
    - rewrite Rmin_left, Rmax_right by auto. apply (range_core u v u' v' p p' s); auto.
    - rewrite Rmin_right, Rmax_left by lra. apply (range_core v u v' u' p p' (1 - s)); auto; try lra.
      + replace (v + (1 - s) * (u - v)) with (u + s * (v - u)) by ring. auto.
      + replace (v' + (1 - s) * (u' - v')) with (u' + s * (v' - u')) by ring. auto.
      + rewrite (Rabs_minus_sym u'), (Rabs_minus_sym u). auto.
  Qed.

  Lemma near_complete p u v tol : bpt p -> bpt u -> bpt v -> bounded k tol -> 64 * m <= B2R tol ->
    near_segment (16 * m) (rp u) (rp v) (rp p) ->
    (64 * m) * (64 * m) < dist2 (rp p) (rp u) -> (64 * m) * (64 * m) < dist2 (rp p) (rp v) ->
    within_perpendicular_distance (cross_product (to_vector p u) (to_vector p v)) (to_vector u v) tol = true
    /\ in_bounds p u v = true.
  Proof.
    intros Hp Hu Hv Bt Ht (q & (s & Hs & Eq) & Hd) Du Dv. pose proof m_pos' as Pm.
    destruct (cross_err p u v Hp Hu Hv) as (BA & HA). cbv zeta in HA.
    set (A := B2R (cross_product (to_vector p u) (to_vector p v))) in *.
    unfold dist2, at_, rp in *. rewrite Eq in Hd. cbn [px py] in *.
    set (dx := B2R (px v) - B2R (px u)) in *. set (dy := B2R (py v) - B2R (py u)) in *.
    set (ex := B2R (px p) - (B2R (px u) + s * dx)) in *. set (ey := B2R (py p) - (B2R (py u) + s * dy)) in *.
    assert (Hex : Rabs ex <= 16 * m) by (apply Rabs_le_iff; split; apply Rnot_lt_le; intros Hc; nra).
    assert (Hey : Rabs ey <= 16 * m) by (apply Rabs_le_iff; split; apply Rnot_lt_le; intros Hc; nra).
    assert (Hadx : Rabs (s * dx) <= Rabs dx) by (rewrite Rabs_mult, (Rabs_pos_eq s) by lra; rewrite <- (Rmult_1_l (Rabs dx)) at 2; apply Rmult_le_compat_r; [apply Rabs_pos|lra]).
    assert (Hady : Rabs (s * dy) <= Rabs dy) by (rewrite Rabs_mult, (Rabs_pos_eq s) by lra; rewrite <- (Rmult_1_l (Rabs dy)) at 2; apply Rmult_le_compat_r; [apply Rabs_pos|lra]).
    assert (Hadx' : Rabs ((1 - s) * dx) <= Rabs dx) by (rewrite Rabs_mult, (Rabs_pos_eq (1 - s)) by lra; rewrite <- (Rmult_1_l (Rabs dx)) at 2; apply Rmult_le_compat_r; [apply Rabs_pos|lra]).
    assert (Hady' : Rabs ((1 - s) * dy) <= Rabs dy) by (rewrite Rabs_mult, (Rabs_pos_eq (1 - s)) by lra; rewrite <- (Rmult_1_l (Rabs dy)) at 2; apply Rmult_le_compat_r; [apply Rabs_pos|lra]).
    assert (Hux : Rabs (B2R (px u) - B2R (px p)) <= Rabs dx + 16 * m).
    { replace (B2R (px u) - B2R (px p)) with (- (ex + s * dx)) by (unfold ex; ring). rewrite Rabs_Ropp. eapply Rle_trans; [apply Rabs_triang|lra]. }
    assert (Huy : Rabs (B2R (py u) - B2R (py p)) <= Rabs dy + 16 * m).
    { replace (B2R (py u) - B2R (py p)) with (- (ey + s * dy)) by (unfold ey; ring). rewrite Rabs_Ropp. eapply Rle_trans; [apply Rabs_triang|lra]. }
    assert (Hvx : Rabs (B2R (px v) - B2R (px p)) <= Rabs dx + 16 * m).
    { replace (B2R (px v) - B2R (px p)) with ((1 - s) * dx + - ex) by (unfold ex, dx; ring). eapply Rle_trans; [apply Rabs_triang|]. rewrite Rabs_Ropp. lra. }
    set (q2 := dx * dx + dy * dy) in *.
    pose proof (Rle_0_sqr dx) as Sx. pose proof (Rle_0_sqr dy) as Sy. unfold Rsqr in Sx, Sy.
    assert (Hq2 : 0 <= q2) by (unfold q2; lra).
    set (La := sqrt q2). assert (HLa : La * La = q2) by (apply sqrt_sqrt; auto). assert (PLa : 0 <= La) by apply sqrt_pos.
    assert (HdxL : Rabs dx <= La).
    { apply Rabs_le_iff. unfold q2 in HLa. split; apply Rnot_lt_le; intros Hc; nra. }
    assert (HdyL : Rabs dy <= La).
    { apply Rabs_le_iff. unfold q2 in HLa. split; apply Rnot_lt_le; intros Hc; nra. }
    assert (HL29 : 29 * m <= La).
    { apply Rnot_lt_le. intros Hc.
      assert (X1 : Rabs (B2R (px u) - B2R (px p)) <= 45 * m) by lra. assert (X2 : Rabs (B2R (py u) - B2R (py p)) <= 45 * m) by lra.
      clear - Du X1 X2 Pm. apply Rabs_le_iff in X1, X2. 
      assert (Z : forall x, - (45 * m) <= x <= 45 * m -> x * x <= 45 * m * (45 * m)).
      { intros x Hx. assert (0 <= (45 * m - x) * (45 * m + x)) by (apply Rmult_le_pos; lra). lra. }
      pose proof (Z (B2R (px p) - B2R (px u)) ltac:(lra)). pose proof (Z (B2R (py p) - B2R (py u)) ltac:(lra)). 
      assert (0 < m * m) by (apply Rmult_lt_0_compat; auto). lra. }
    split.
    - apply wpd_true; auto. fold dx dy q2.
      { fold A. assert (m * m <= La * La) by (apply Rmult_le_compat; lra). lra. }
      fold dx dy q2. fold A. rewrite <- HLa.
      pose proof uro_small as Su. pose proof uro_pos as Pu. pose proof eta_pos as Pe. pose proof M_pos' as PM.
      assert (HC : Rabs ((B2R (px u) - B2R (px p)) * (B2R (py v) - B2R (py p)) - (B2R (py u) - B2R (py p)) * (B2R (px v) - B2R (px p))) <= 16 * m * La).
      { replace ((B2R (px u) - B2R (px p)) * (B2R (py v) - B2R (py p)) - (B2R (py u) - B2R (py p)) * (B2R (px v) - B2R (px p)))
          with (dx * ey - dy * ex) by (unfold ex, ey, dx, dy; ring).
        set (C := dx * ey - dy * ex).
        assert (HC2 : C * C <= 16 * m * La * (16 * m * La)).
        { apply Rle_trans with (q2 * (ex * ex + ey * ey)).
          - pose proof (Rle_0_sqr (dx * ex + dy * ey)) as Z. unfold Rsqr in Z. unfold C, q2. lra.
          - rewrite <- HLa. replace (16 * m * La * (16 * m * La)) with (La * La * (16 * m * (16 * m))) by ring. apply Rmult_le_compat_l; auto. rewrite HLa; auto. }
        assert (P0 : 0 <= 16 * m * La) by (apply Rmult_le_pos; lra).
        apply Rabs_le_iff. split; apply Rnot_lt_le; intros Hc; nra. }
      assert (HS : Rabs ((B2R (px u) - B2R (px p)) * (B2R (py v) - B2R (py p))) + Rabs ((B2R (py u) - B2R (py p)) * (B2R (px v) - B2R (px p))) <= 4 * M * (1.56 * La)).
      { rewrite !Rabs_mult. destruct Hp as (Px & Py), Hu as (Ux & Uy), Hv as (Vx & Vy).
        assert (Rabs (B2R (px u) - B2R (px p)) * Rabs (B2R (py v) - B2R (py p)) <= 1.56 * La * (2 * M)).
        { apply Rmult_le_compat; try apply Rabs_pos; [lra|now apply diff_bound]. }
        assert (Rabs (B2R (py u) - B2R (py p)) * Rabs (B2R (px v) - B2R (px p)) <= 2 * M * (1.56 * La)).
        { apply Rmult_le_compat; try apply Rabs_pos; [now apply diff_bound|lra]. }
        lra. }
      set (S := Rabs ((B2R (px u) - B2R (px p)) * (B2R (py v) - B2R (py p))) + Rabs ((B2R (py u) - B2R (py p)) * (B2R (px v) - B2R (px p)))) in *.
      set (C := (B2R (px u) - B2R (px p)) * (B2R (py v) - B2R (py p)) - (B2R (py u) - B2R (py p)) * (B2R (px v) - B2R (px p))) in *.
      assert (HuS : 4.1 * uro * S <= 25.6 * (m * La)).
      { apply Rle_trans with (4.1 * uro * (4 * M * (1.56 * La))); [apply Rmult_le_compat_l; lra|]. unfold m.
        assert (0 <= uro * M * La) by (apply Rmult_le_pos; auto; apply Rmult_le_pos; lra). lra. }
      assert (K1 : 1000 * eta <= m * m).
      { rewrite m_eq'. apply Rle_trans with (bpow radix2 10 * eta); [change (bpow radix2 10) with 1024; lra|].
        unfold eta. rewrite <- !bpow_plus. apply bpow_le. lia. }
      assert (K2 : m * m <= m * La) by (apply Rmult_le_compat_l; lra).
      assert (HAb : Rabs A <= 42 * (m * La)).
      { apply Rabs_le_iff in HC, HA. apply Rabs_le_iff. lra. }
      replace (A * A) with (Rabs A * Rabs A) by (rewrite <- Rabs_mult, Rabs_pos_eq; auto; apply Rle_0_sqr).
      apply Rle_trans with (42 * (m * La) * (42 * (m * La))); [apply Rmult_le_compat; auto using Rabs_pos|].
      assert (0 <= m * m * (La * La)) by (apply Rmult_le_pos; [apply Rmult_le_pos|]; lra). lra.
    - clear HA Hd. destruct (in_bounds_cases p u v Hp Hu Hv) as [(H1 & ->)|(H1 & ->)].
      + apply (range_core' _ _ (B2R (py u)) (B2R (py v)) _ (B2R (py p)) s); auto.
      + apply (range_core' _ _ (B2R (px u)) (B2R (px v)) _ (B2R (px p)) s); auto; lra.
  Qed.
End Point.
