(** One clipping step by a slanted side, in binary64, when no vertex is near
    the line of the side. *)
From Coq Require Import Reals Lra Psatz.
From Flocq Require Import IEEE754.BinarySingleNaN Core.
From Verif Require Import RBase NumB64 NumRoom FBase FBuild MGeometry MAlgorithms FPoint FCut FClip
  SpecPoly SpecClear GTriangle GConvex GClip GMeasure GClose PClip PClipRun.
Open Scope R_scope.

Section Slant.
  Local Notation bounded := NumRoom.bounded.
  Variable k : Z.
  Hypothesis Hk : (-251 <= k <= 400)%Z.
  Let M := bpow radix2 k.
  Let m := uro * M.
  Notation bpt := (bpt k).

  Section Side.
    Variables r s : point b64.
    Hypothesis (Br : bpt r) (Bs : bpt s).
    Hypothesis HL : bpow radix2 (-250) <= slen r s.
    Notation U := (Pt (nsub (px s) (px r)) (nsub (py s) (py r))).
    Notation N := (Pt (nopp (py U)) (px U)).
    Notation f := (orient (rp r) (rp s)).
    Notation L := (slen r s).
    Notation Lm := (slen r s * m).

    Lemma L_pos : 0 < L. Proof. pose proof (bpow_gt_0 radix2 (-250)). lra. Qed.
    Lemma Lm_pos : 0 < Lm.
    Proof. apply Rmult_lt_0_compat; [apply L_pos|apply (mp k)]. Qed.
    Lemma eta_Lm : eta <= Lm / 1000.
    Proof.
      pose proof (eta_mm k Hk) as H. fold M m in H.
      assert (E : bpow radix2 252 * bpow radix2 (-250) = 4) by (rewrite <- bpow_plus; reflexivity).
      pose proof (bpow_gt_0 radix2 252) as P. pose proof eta_pos as Pe.
      assert (G : bpow radix2 (-250) * m <= Lm) by (apply Rmult_le_compat_r; [left; apply (mp k)|exact HL]).
      pose proof (bpow_gt_0 radix2 (-250)) as P2.
      assert (H2 : eta * bpow radix2 252 * bpow radix2 (-250) <= m / 1000 * bpow radix2 (-250)) by (apply Rmult_le_compat_r; lra).
      rewrite Rmult_assoc, E in H2. lra.
    Qed.

    Lemma prod_val (u v : b64) u0 v0 : bounded (k + 1) u -> bounded (k + 1) v -> Rabs u0 <= L -> Rabs v0 <= 2 * M ->
      (exists e, Rabs e <= uro /\ B2R u = u0 * (1 + e)) -> (exists e, Rabs e <= uro /\ B2R v = v0 * (1 + e)) ->
      bounded (k + k + 4) (nmul u v) /\ Rabs (B2R (nmul u v) - u0 * v0) <= 6.1 * Lm.
    Proof.
      intros Bu Bv Hu Hv (e1 & H1 & E1) (e2 & H2 & E2). destruct (mul_val2 k Hk u v Bu Bv) as (E & B). split; auto.
      destruct (rnd_any (B2R u * B2R v)) as (e3 & h & H3 & Hh & Er). rewrite E, Er, E1, E2.
      set (c := e1 + e2 + e3 + e1 * e2 + e1 * e3 + e2 * e3 + e1 * e2 * e3).
      replace (u0 * (1 + e1) * (v0 * (1 + e2)) * (1 + e3) + h - u0 * v0) with (u0 * v0 * c + h) by (unfold c; ring).
      pose proof uro_small as Su. pose proof uro_pos as Pu.
      assert (Hc : Rabs c <= 3.01 * uro).
      { pose proof (mul_abs e1 e2 uro uro H1 H2) as G1. pose proof (mul_abs e1 e3 uro uro H1 H3) as G2. pose proof (mul_abs e2 e3 uro uro H2 H3) as G3.
        pose proof (mul_abs (e1 * e2) e3 (uro * uro) uro G1 H3) as G4.
        assert (S2 : uro * uro <= / 1000000 * uro) by (apply Rmult_le_compat_r; lra).
        assert (S3 : uro * uro * uro <= / 1000000 * uro) by (apply Rmult_le_compat_r; [lra|]; lra).
        apply Rabs_le_iff in H1, H2, H3, G1, G2, G3, G4. apply Rabs_le_iff. unfold c. lra. }
      pose proof (mul_abs u0 v0 L (2 * M) Hu Hv) as G. pose proof (mul_abs (u0 * v0) c _ _ G Hc) as G2.
      replace (L * (2 * M) * (3.01 * uro)) with (6.02 * Lm) in G2 by (unfold m; lra).
      pose proof eta_Lm. pose proof Lm_pos. eapply Rle_trans; [apply Rabs_triang|]. lra.
    Qed.

    Lemma diff_rel (x y : b64) : bounded k x -> bounded k y -> exists e, Rabs e <= uro /\ B2R (nsub x y) = (B2R x - B2R y) * (1 + e).
    Proof.
      intros Hx Hy. destruct (diff_val k Hk x y Hx Hy) as (_ & E & _). destruct (rnd_minus x y) as (e & He & Er). exists e. split; auto. now rewrite E.
    Qed.

    (** products of the side with a difference of points *)
    Lemma side_prods (x y x' y' : b64) : bounded k x -> bounded k y -> bounded k x' -> bounded k y' ->
      let vx := nsub x x' in let vy := nsub y y' in
      let p1 := B2R (px s) - B2R (px r) in let p2 := B2R (py s) - B2R (py r) in
      (bounded (k + k + 4) (nmul (px U) vy) /\ Rabs (B2R (nmul (px U) vy) - p1 * (B2R y - B2R y')) <= 6.1 * Lm)
      /\ (bounded (k + k + 4) (nmul (py U) vx) /\ Rabs (B2R (nmul (py U) vx) - p2 * (B2R x - B2R x')) <= 6.1 * Lm)
      /\ is_finite (nadd (nmul (nopp (py U)) vx) (nmul (px U) vy)) = true
      /\ Rabs (B2R (nadd (nmul (nopp (py U)) vx) (nmul (px U) vy)) - (p1 * (B2R y - B2R y') - p2 * (B2R x - B2R x'))) <= 17 * Lm.
    Proof.
      intros Bx By Bx' By'. cbn zeta. destruct Br as (Rx & Ry). destruct Bs as (Sx & Sy). cbn [px py].
      destruct (diff_val k Hk (px s) (px r) Sx Rx) as (B1 & _ & _). destruct (diff_val k Hk (py s) (py r) Sy Ry) as (B2 & _ & _).
      destruct (diff_val k Hk x x' Bx Bx') as (B3 & _ & _). destruct (diff_val k Hk y y' By By') as (B4 & _ & _).
      pose proof (diff_rel _ _ Sx Rx) as R1. pose proof (diff_rel _ _ Sy Ry) as R2. pose proof (diff_rel _ _ Bx Bx') as R3. pose proof (diff_rel _ _ By By') as R4.
      pose proof (diff_bd k x x' Bx Bx') as D3. pose proof (diff_bd k y y' By By') as D4. fold M in D3, D4.
      assert (L1 : Rabs (B2R (px s) - B2R (px r)) <= L) by apply Rmax_l. assert (L2 : Rabs (B2R (py s) - B2R (py r)) <= L) by apply Rmax_r.
      set (ux := nsub (px s) (px r)) in *. set (uy := nsub (py s) (py r)) in *. set (vx := nsub x x') in *. set (vy := nsub y y') in *.
      set (p1 := B2R (px s) - B2R (px r)) in *. set (p2 := B2R (py s) - B2R (py r)) in *.
      destruct (prod_val ux vy p1 _ B1 B4 L1 D4 R1 R4) as (Q1 & E1). destruct (prod_val uy vx p2 _ B2 B3 L2 D3 R2 R3) as (Q2 & E2).
      split; auto. split; auto.
      assert (Bn : bounded (k + 1) (nopp uy)).
      { destruct B2 as (F & H). split; cbn; [now rewrite is_finite_Bopp|]. now rewrite B2R_Bopp, Rabs_Ropp. }
      assert (Rn : exists e, Rabs e <= uro /\ B2R (nopp uy) = - p2 * (1 + e)).
      { destruct R2 as (e & He & E). exists e. split; auto. assert (En : B2R (nopp uy) = - B2R uy) by (cbn; apply B2R_Bopp). rewrite En, E. ring. }
      destruct (prod_val (nopp uy) vx (- p2) _ Bn B3 ltac:(now rewrite Rabs_Ropp) D3 Rn R3) as (Q3 & E3).
      set (y1 := nmul (nopp uy) vx) in *. set (y2 := nmul ux vy) in *.
      pose proof (mp k) as Pm. fold M m in Pm. pose proof (Mp k) as PM. fold M in PM. pose proof Lm_pos as PL. pose proof (mM2 k) as HmM. fold M m in HmM.
      assert (S1 : Rabs (p1 * (B2R y - B2R y')) <= L * (2 * M)) by (now apply mul_abs).
      assert (S2 : Rabs (- p2 * (B2R x - B2R x')) <= L * (2 * M)) by (apply mul_abs; auto; now rewrite Rabs_Ropp).
      assert (HLM : Lm <= L * M / 1000000).
      { unfold Rdiv. rewrite Rmult_assoc. apply Rmult_le_compat_l; [left; apply L_pos|]. unfold Rdiv in HmM. lra. }
      assert (Sum : Rabs (B2R y1 + B2R y2) <= 4.01 * (L * M)).
      { pose proof L_pos. assert (0 < L * M) by (now apply Rmult_lt_0_compat). apply Rabs_le_iff in E1, E3, S1, S2. apply Rabs_le_iff. lra. }
      destruct (plus_val (k + k + 5) y1 y2) as (E5 & B5); [lia|apply Q3|apply Q1| |].
      { assert (bpow radix2 (k + k + 4) + bpow radix2 (k + k + 4) = bpow radix2 (k + k + 5)).
        { replace (k + k + 5)%Z with (1 + (k + k + 4))%Z by lia. rewrite (bpow_plus radix2 1). change (bpow radix2 1) with 2. ring. }
        destruct Q1 as (_ & Q1). destruct Q3 as (_ & Q3). eapply Rle_trans; [apply Rabs_triang|]. lra. }
      split; [apply B5|]. rewrite E5.
      pose proof (rnd_abs _ _ Sum) as G. replace (uro * (4.01 * (L * M))) with (4.01 * Lm) in G by (unfold m; lra).
      pose proof eta_Lm. apply Rabs_le_iff in E1, E3, G. apply Rabs_le_iff. lra.
    Qed.

    Lemma inside_clear p : bpt p -> 13 * Lm <= Rabs (f (rp p)) -> inside p r U = ins (rp r) (rp s) (rp p).
    Proof.
      intros (Px & Py) Hf. destruct Br as (Rx & Ry). pose proof Lm_pos as PL.
      destruct (side_prods (px p) (py p) (px r) (py r) Px Py Rx Ry) as ((B1 & E1) & (B2 & E2) & _).
      unfold inside, ins. rewrite nltb_B by (first [apply B1|apply B2]). apply Rltb_ext.
      unfold orient, rp in *. cbn [px py] in *. apply Rabs_le_iff in E1, E2. unfold Rabs in Hf. destruct Rcase_abs in Hf; split; lra.
    Qed.

    (** where the line is crossed *)
    Lemma cut_clear a b : bpt a -> bpt b -> 100 * Lm <= Rabs (f (rp a)) -> 100 * Lm <= Rabs (f (rp b)) ->
      (f (rp a) < 0 < f (rp b) \/ f (rp b) < 0 < f (rp a)) ->
      exists x, intersection a (Pt (nsub (px b) (px a)) (nsub (py b) (py a))) r N = Ok (Some x)
        /\ is_finite (px x) = true /\ is_finite (py x) = true
        /\ closep (6 * m) (rp a) (rp b) (rp x) /\ Rabs (f (rp x)) <= L * (64 * m).
    Proof.
      intros (Ax & Ay) (Bx & By) Ha Hb Hab. destruct Br as (Rx & Ry). pose proof (mp k) as Pm. fold M m in Pm.
      pose proof Lm_pos as PL. pose proof L_pos as PL0. pose proof eta_Lm as EL. pose proof eta_pos as Pe. pose proof uro_pos as Pu. pose proof uro_small as Su.
      unfold intersection, dot_product. cbn [px py].
      destruct (side_prods (px r) (py r) (px a) (py a) Rx Ry Ax Ay) as (_ & _ & Fw & Ew). cbn [px py] in Fw, Ew.
      destruct (side_prods (px b) (py b) (px a) (py a) Bx By Ax Ay) as (_ & _ & Fv & Ev). cbn [px py] in Fv, Ev.
      set (nw := nadd (nmul (nopp (nsub (py s) (py r))) (nsub (px r) (px a))) (nmul (nsub (px s) (px r)) (nsub (py r) (py a)))) in *.
      set (nv := nadd (nmul (nopp (nsub (py s) (py r))) (nsub (px b) (px a))) (nmul (nsub (px s) (px r)) (nsub (py b) (py a)))) in *.
      set (fa := f (rp a)) in *. set (fb := f (rp b)) in *.
      replace ((B2R (px s) - B2R (px r)) * (B2R (py r) - B2R (py a)) - (B2R (py s) - B2R (py r)) * (B2R (px r) - B2R (px a)))
        with (- fa) in Ew by (unfold fa, f, orient, rp; cbn [px py]; ring).
      replace ((B2R (px s) - B2R (px r)) * (B2R (py b) - B2R (py a)) - (B2R (py s) - B2R (py r)) * (B2R (px b) - B2R (px a)))
        with (fb - fa) in Ev by (unfold fa, fb, f, orient, rp; cbn [px py]; ring).
      apply Rabs_le_iff in Ew, Ev.
      assert (Sg : 0 < B2R nw < B2R nv \/ B2R nv < B2R nw < 0).
      { unfold Rabs in Ha, Hb. destruct Hab as [(H1 & H2)|(H1 & H2)]; [left|right]; destruct (Rcase_abs fa) in Ha; destruct (Rcase_abs fb) in Hb; lra. }
      assert (Nv : B2R nv <> 0) by lra.
      assert (H01 : 0 <= B2R nw / B2R nv <= 1).
      { destruct Sg as [(G1 & G2)|(G1 & G2)].
        - split; [apply Rmult_le_pos; [lra|]; left; apply Rinv_0_lt_compat; lra|].
          apply (Rmult_le_reg_r (B2R nv)); [lra|]. unfold Rdiv. rewrite Rmult_assoc, Rinv_l by auto. lra.
        - replace (B2R nw / B2R nv) with ((- B2R nw) / (- B2R nv)) by (field; auto).
          split; [apply Rmult_le_pos; [lra|]; left; apply Rinv_0_lt_compat; lra|].
          apply (Rmult_le_reg_r (- B2R nv)); [lra|]. unfold Rdiv. rewrite Rmult_assoc, Rinv_l by lra. lra. }
      destruct (div_val 0 nw nv) as (Ed & Et & Bt); [lia|auto|auto|auto|rewrite Rabs_pos_eq by lra; change (bpow radix2 0) with 1; lra|].
      set (t := ndivraw nw nv) in *.
      assert (Ht : 0 <= B2R t <= 1).
      { destruct (Zb_exact 1 ltac:(cbv; discriminate)) as (_ & E1b). split; rewrite Et.
        - rewrite <- rnd_0. apply rnd_mono. lra.
        - rewrite <- E1b. apply rnd_le. rewrite E1b. lra. }
      destruct (Zb_exact 0 ltac:(cbv; discriminate)) as (F0 & E0).
      assert (Eb : neqb nv (nofZ 0) = false).
      { rewrite neqb_B; auto. change (nofZ 0 : b64) with (Zb 0). rewrite E0. now apply Req_bool_false. }
      rewrite Eb. cbn [negb]. rewrite Ed. cbn [bind].
      destruct (coord_cut k Hk (px a) (px b) t Ax Bx (proj1 Bt) Ht) as (Fx & Ex). destruct (coord_cut k Hk (py a) (py b) t Ay By (proj1 Bt) Ht) as (Fy & Ey).
      fold M m in Ex, Ey. eexists. split; [reflexivity|]. cbn [px py]. split; auto. split; auto. split.
      { exists (at_ (rp a) (rp b) (B2R t)). split; [exists (B2R t); auto|]. unfold rp, at_. cbn [px py]. auto. }
      set (X := nadd (px a) (nmul t (nsub (px b) (px a)))) in *. set (Y := nadd (py a) (nmul t (nsub (py b) (py a)))) in *.
      (* the line at the exact combination *)
      destruct (rnd_any (B2R nw / B2R nv)) as (e3 & h3 & H3 & Hh3 & Er). rewrite <- Et in Er.
      assert (Key : B2R t * B2R nv = B2R nw * (1 + e3) + h3 * B2R nv) by (rewrite Er; field; auto).
      assert (Fb : forall p, bpt p -> Rabs (f (rp p)) <= 4 * (L * M)).
      { intros p (P1 & P2). pose proof (diff_bd k _ _ P1 Rx) as D1. pose proof (diff_bd k _ _ P2 Ry) as D2. fold M in D1, D2.
        assert (G1 : Rabs ((B2R (px s) - B2R (px r)) * (B2R (py p) - B2R (py r))) <= L * (2 * M)) by (apply mul_abs; auto; apply Rmax_l).
        assert (G2 : Rabs ((B2R (py s) - B2R (py r)) * (B2R (px p) - B2R (px r))) <= L * (2 * M)) by (apply mul_abs; auto; apply Rmax_r).
        unfold f, orient, rp. cbn [px py]. apply Rabs_le_iff in G1, G2. apply Rabs_le_iff. lra. }
      pose proof (Fb a (conj Ax Ay)) as Ba. pose proof (Fb b (conj Bx By)) as Bb. fold fa in Ba. fold fb in Bb. apply Rabs_le_iff in Ba, Bb.
      pose proof (mM2 k) as HmM. fold M m in HmM.
      assert (HLM : Lm <= L * M / 1000000).
      { unfold Rdiv. rewrite Rmult_assoc. apply Rmult_le_compat_l; [lra|]. unfold Rdiv in HmM. lra. }
      assert (LMp : 0 < L * M) by (apply Rmult_lt_0_compat; [lra|apply (Mp k)]).
      assert (Bw : Rabs (B2R nw) <= 4.01 * (L * M)) by (apply Rabs_le_iff; lra).
      assert (Bv : Rabs (B2R nv) <= 8.01 * (L * M)) by (apply Rabs_le_iff; lra).
      pose proof (mul_abs _ _ _ _ Bw H3) as G1. replace (4.01 * (L * M) * uro) with (4.01 * Lm) in G1 by (unfold m; lra).
      pose proof (mul_abs _ _ _ _ Hh3 Bv) as G2.
      assert (EM : eta * (8.01 * (L * M)) <= Lm / 100).
      { pose proof (eta_M2 k) as H. fold M m in H. replace (eta * (8.01 * (L * M))) with (8.01 * (L * (eta * M))) by field.
        assert (L * (eta * M) <= L * (m / 1000)) by (apply Rmult_le_compat_l; lra). unfold Rdiv in *. lra. }
      assert (T17 : Rabs (B2R t * (B2R nv - (fb - fa))) <= 17 * Lm).
      { rewrite Rabs_mult, (Rabs_pos_eq (B2R t)) by lra. apply Rle_trans with (1 * (17 * Lm)); [|lra].
        apply Rmult_le_compat; try lra; [apply Rabs_pos|]. apply Rabs_le_iff. lra. }
      assert (Line : Rabs (fa + B2R t * (fb - fa)) <= 39 * Lm).
      { replace (fa + B2R t * (fb - fa)) with ((B2R nw + fa) + B2R nw * e3 + h3 * B2R nv - B2R t * (B2R nv - (fb - fa))) by (rewrite Rmult_minus_distr_l, Key; ring).
        apply Rabs_le_iff in G1, G2, T17. apply Rabs_le_iff. lra. }
      replace (f (rp (Pt X Y))) with ((fa + B2R t * (fb - fa)) + (B2R (px s) - B2R (px r)) * (B2R Y - (B2R (py a) + B2R t * (B2R (py b) - B2R (py a))))
         - (B2R (py s) - B2R (py r)) * (B2R X - (B2R (px a) + B2R t * (B2R (px b) - B2R (px a)))))
        by (unfold fa, fb, f, orient, rp; cbn [px py]; ring).
      assert (C1 : Rabs ((B2R (px s) - B2R (px r)) * (B2R Y - (B2R (py a) + B2R t * (B2R (py b) - B2R (py a))))) <= L * (6 * m)) by (apply mul_abs; auto; apply Rmax_l).
      assert (C2 : Rabs ((B2R (py s) - B2R (py r)) * (B2R X - (B2R (px a) + B2R t * (B2R (px b) - B2R (px a))))) <= L * (6 * m)) by (apply mul_abs; auto; apply Rmax_r).
      apply Rabs_le_iff in Line, C1, C2. apply Rabs_le_iff. lra.
    Qed.
  End Side.
End Slant.
