(** In binary64 construction succeeds whenever every box is wider and higher
    than a few units in the last place of the largest coordinate. *)
From Coq Require Import Reals Lra Psatz Permutation.
From Flocq Require Import IEEE754.BinarySingleNaN Core.
From Verif Require Import Base Num NumR NumB64 NumRoom FBase MUtils MGeometry MCreation PStack PPartition SpecTree PBuild PBuild2 SpecQuery.
Open Scope R_scope.

Lemma Rabs_le_iff x a : Rabs x <= a <-> - a <= x <= a.
Proof. split; [apply Rabs_le_inv|apply Rabs_le]. Qed.

(** rounding as an absolute error *)
Lemma rnd_abs z B : Rabs z <= B -> Rabs (rnd z - z) <= uro * B + eta.
Proof.
  intros Hz. destruct (rnd_any z) as (e & h & He & Hh & ->).
  replace (z * (1 + e) + h - z) with (z * e + h) by ring.
  eapply Rle_trans; [apply Rabs_triang|]. apply Rplus_le_compat; auto.
  rewrite Rabs_mult, (Rmult_comm uro). apply Rmult_le_compat; auto using Rabs_pos.
Qed.

Lemma bpow_shift k j : bpow radix2 (k + j) = bpow radix2 k * bpow radix2 j.
Proof. apply bpow_plus. Qed.

Section Build.
  Local Notation bounded := NumRoom.bounded.
  Variable bbc : list (box b64).
  Variable k : Z.
  Hypothesis Hk : (-900 <= k <= 1000)%Z.
  Hypothesis Hbnd : Forall (fun b => bounded k (xmin b) /\ bounded k (xmax b) /\ bounded k (ymin b) /\ bounded k (ymax b)) bbc.
  Hypothesis Hpos : Forall (fun b => B2R (xmin b) + bpow radix2 (k - 48) <= B2R (xmax b)
                                     /\ B2R (ymin b) + bpow radix2 (k - 48) <= B2R (ymax b)) bbc.
  Variable nb : Z.
  Hypothesis Hnb : (1 <= nb <= 2 ^ 52)%Z.
  Hypothesis Hroom : (zlen bbc <= 2 ^ 53)%Z.

  Let M := bpow radix2 k.
  Let m := uro * M.

  Lemma Hfin : Forall finite_box bbc.
  Proof.
    eapply Forall_impl; [|exact Hbnd]. intros b ((A & _) & (B & _) & (C & _) & (D & _)).
    repeat split; auto.
  Qed.

  Lemma M_pos : 0 < M. Proof. apply bpow_gt_0. Qed.
  Lemma m_pos : 0 < m. Proof. apply Rmult_lt_0_compat; [apply uro_pos|apply M_pos]. Qed.
  Lemma m_eq : m = bpow radix2 (k - 53).
  Proof. unfold m, M, uro. rewrite <- bpow_plus. f_equal. lia. Qed.
  Lemma delta_eq : bpow radix2 (k - 48) = 32 * m.
  Proof. rewrite m_eq. replace (k - 48)%Z with (5 + (k - 53))%Z by lia. rewrite bpow_plus. reflexivity. Qed.
  Lemma m_M : m <= M / 1000000.
  Proof. unfold m. rewrite uro_val. pose proof M_pos. lra. Qed.
  Lemma nb_eta : IZR nb * eta <= m / 1000.
  Proof.
    apply Rle_trans with (bpow radix2 53 * eta).
    - apply Rmult_le_compat_r; [left; apply eta_pos|].
      change (bpow radix2 53) with (IZR (2 ^ 53)). apply IZR_le. lia.
    - unfold eta. rewrite <- bpow_plus. rewrite m_eq.
      apply Rle_trans with (bpow radix2 (k - 63)); [apply bpow_le; lia|].
      replace (k - 53)%Z with (10 + (k - 63))%Z by lia. rewrite bpow_plus.
      pose proof (bpow_gt_0 radix2 (k - 63)). change (bpow radix2 10) with 1024. lra.
  Qed.
  Lemma eta_m : eta <= m / 1000.
  Proof.
    eapply Rle_trans; [|exact nb_eta]. pose proof eta_pos. assert (1 <= IZR nb) by (apply IZR_le; lia).
    rewrite <- (Rmult_1_l eta) at 1. apply Rmult_le_compat_r; lra.
  Qed.

  Notation elo := (elo bbc).
  Notation ehi := (ehi bbc).
  Notation GMin := (GMin bbc).
  Notation GMax := (GMax bbc).

  Lemma box_of dim e : in_range bbc e -> bounded k (elo dim e) /\ bounded k (ehi dim e)
     /\ B2R (elo dim e) + 32 * m <= B2R (ehi dim e).
  Proof.
    intros He. unfold PBuild.elo, PBuild.ehi. destruct (aget_ok_pos bbc e He) as (b & E & En). rewrite E.
    rewrite Forall_forall in Hpos, Hbnd. apply nth_error_In in En.
    destruct (Hpos b En) as (A & B). destruct (Hbnd b En) as (C1 & C2 & C3 & C4).
    rewrite delta_eq in A, B. unfold blo, bhi. destruct (dim =? 0)%Z; auto.
  Qed.

  Lemma gmax_ge dim s e : In e s -> B2R (ehi dim e) <= B2R (GMax dim s).
  Proof.
    intros He. destruct (gmax_spec bbc Hfin dim s nfmin fin_fmin) as (F & _ & H).
    rewrite Forall_forall in H. specialize (H e He).
    rewrite nleb_B in H; [|apply (fin_ehi bbc Hfin)|exact F]. now apply Rleb_iff in H.
  Qed.
  Lemma gmin_le dim s e : In e s -> B2R (GMin dim s) <= B2R (elo dim e).
  Proof.
    intros He. destruct (gmin_spec bbc Hfin dim s nfmax fin_fmax) as (F & _ & H).
    rewrite Forall_forall in H. specialize (H e He).
    rewrite nleb_B in H; [|exact F|apply (fin_elo bbc Hfin)]. now apply Rleb_iff in H.
  Qed.
  Lemma gmax_fin dim s : is_finite (GMax dim s) = true.
  Proof. apply (gmax_spec bbc Hfin dim s nfmin fin_fmin). Qed.
  Lemma gmin_fin dim s : is_finite (GMin dim s) = true.
  Proof. apply (gmin_spec bbc Hfin dim s nfmax fin_fmax). Qed.
  Lemma gmax_le dim s : s <> [] -> exists e, In e s /\ B2R (GMax dim s) <= B2R (ehi dim e).
  Proof.
    intros Hne. destruct (GMax_att bbc Hfin dim s Hne) as (e & He & H).
    rewrite nleb_B in H; [|apply gmax_fin|apply (fin_ehi bbc Hfin)]. apply Rleb_iff in H. eauto.
  Qed.
  Lemma gmin_ge dim s : s <> [] -> exists e, In e s /\ B2R (elo dim e) <= B2R (GMin dim s).
  Proof.
    intros Hne. destruct (GMin_att bbc Hfin dim s Hne) as (e & He & H).
    rewrite nleb_B in H; [|apply (fin_elo bbc Hfin)|apply gmin_fin]. apply Rleb_iff in H. eauto.
  Qed.

  (** the extent of a set of elements *)
  Lemma extent dim s : s <> [] -> Forall (in_range bbc) s ->
    - M <= B2R (GMin dim s) /\ B2R (GMin dim s) + 32 * m <= B2R (GMax dim s) /\ B2R (GMax dim s) <= M.
  Proof.
    intros Hne Hr. rewrite Forall_forall in Hr.
    destruct (gmax_le dim s Hne) as (e & He & H1). destruct (gmin_ge dim s Hne) as (e' & He' & H2).
    destruct (box_of dim e (Hr e He)) as (_ & (_ & A) & A').
    destruct (box_of dim e' (Hr e' He')) as ((_ & B) & _ & B').
    apply Rabs_le_iff in A, B. fold M in A, B.
    pose proof (gmax_ge dim s e He). pose proof (gmin_le dim s e He).
    repeat split; try lra.
  Qed.

  (** the bucket length *)
  Lemma bl_spec dim s bl : s <> [] -> Forall (in_range bbc) s ->
    ndiv (nsub (GMax dim s) (GMin dim s)) (nofZ nb) = Ok bl ->
    is_finite bl = true /\ 0 < B2R bl /\ Rabs (B2R bl) <= bpow radix2 (k + 1)
    /\ Rabs (IZR nb * B2R bl - (B2R (GMax dim s) - B2R (GMin dim s))) <= 4.1 * m.
  Proof.
    intros Hne Hr E. destruct (extent dim s Hne Hr) as (H1 & H2 & H3).
    pose proof m_pos as Pm. pose proof m_M as HmM. pose proof M_pos as PM. pose proof eta_m as He. pose proof nb_eta as Hne'.
    pose proof eta_pos as Pe.
    set (lo := B2R (GMin dim s)) in *. set (hi := B2R (GMax dim s)) in *.
    assert (HD0 : Rabs (hi - lo) <= bpow radix2 (k + 1)).
    { rewrite bpow_shift. change (bpow radix2 1) with 2. fold M. apply Rabs_le_iff. lra. }
    destruct (minus_val (k + 1) (GMax dim s) (GMin dim s)) as (ED & FD & BD); auto using gmax_fin, gmin_fin; try lia.
    fold hi lo in ED. set (D := nsub (GMax dim s) (GMin dim s)) in *.
    assert (AD : Rabs (B2R D - (hi - lo)) <= 2.001 * m).
    { rewrite ED. eapply Rle_trans; [apply (rnd_abs _ (2 * M)); apply Rabs_le_iff; lra|].
      replace (uro * (2 * M)) with (2 * m) by (unfold m; ring). lra. }
    apply Rabs_le_iff in AD.
    destruct (Zb_exact nb ltac:(lia)) as (Fn & En).
    assert (Hn1 : 1 <= IZR nb) by (apply IZR_le; lia).
    assert (HD : 29 * m <= B2R D) by lra.
    assert (Hq : 0 <= B2R D / IZR nb <= B2R D).
    { split; [apply Rmult_le_pos; [lra|left; apply Rinv_0_lt_compat; lra]|].
      apply Rmult_le_reg_r with (IZR nb); [lra|]. unfold Rdiv. rewrite Rmult_assoc, Rinv_l, Rmult_1_r by lra.
      rewrite <- (Rmult_1_r (B2R D)) at 1. apply Rmult_le_compat_l; lra. }
    assert (Hqn : B2R D / IZR nb * IZR nb = B2R D) by (field; lra).
    destruct (div_val (k + 1) D (Zb nb)) as (Ed & EV & FV & BV); auto; try lia.
    { rewrite En; lra. }
    { rewrite En. rewrite Rabs_pos_eq by apply Hq. apply Rabs_le_iff in BD. lra. }
    rewrite En in EV. change (nofZ nb) with (Zb nb) in E. rewrite Ed in E. injection E as <-. change (Bdiv mode_NE D (Zb nb)) with (ndivraw D (Zb nb)).
    set (bl := B2R (ndivraw D (Zb nb))) in *. set (q := B2R D / IZR nb) in *.
    assert (Aq : Rabs (bl - q) <= uro * q + eta).
    { rewrite EV. apply rnd_abs. rewrite Rabs_pos_eq; lra. }
    apply Rabs_le_iff in Aq.
    assert (Anb : Rabs (IZR nb * bl - B2R D) <= uro * B2R D + IZR nb * eta).
    { rewrite <- Hqn. apply Rabs_le_iff.
      replace (IZR nb * bl - q * IZR nb) with (IZR nb * (bl - q)) by ring.
      assert (X : IZR nb * (bl - q) <= IZR nb * (uro * q + eta)) by (apply Rmult_le_compat_l; lra).
      assert (Y : IZR nb * - (uro * q + eta) <= IZR nb * (bl - q)) by (apply Rmult_le_compat_l; lra).
      replace (uro * (q * IZR nb) + IZR nb * eta) with (IZR nb * (uro * q + eta)) by ring.
      replace (- (IZR nb * (uro * q + eta))) with (IZR nb * - (uro * q + eta)) by ring. lra. }
    assert (HuD : uro * B2R D <= 2.001 * m).
    { replace (2.001 * m) with (uro * (2.001 * M)) by (unfold m; ring). apply Rmult_le_compat_l; [left; apply uro_pos|]. lra. }
    apply Rabs_le_iff in Anb.
    assert (Hbln : 0 < IZR nb * bl) by lra.
    fold bl. split; [exact FV|]. split; [|split; [exact BV|apply Rabs_le_iff; lra]].
    apply (Rmult_lt_reg_l (IZR nb)); lra.
  Qed.

  (** the limits of the buckets *)
  Definition limit (bl lo : b64) (i : Z) : b64 := nadd (nmul (nofZ i) bl) lo.

  Lemma make_buckets_in bl lo i : (0 <= i < nb)%Z ->
    In (Bucket (limit bl lo (i + 1)) (limit bl lo i) (nofZ (-1)) (nofZ (-1)) (-1)%Z 0%Z) (make_buckets nb bl lo).
  Proof.
    intros Hi. unfold make_buckets. apply in_map_iff. exists i. split; [reflexivity|]. apply iota_in. lia.
  Qed.

  Lemma has_bucket dim s e : (dim = 0 \/ dim = 1)%Z -> Forall (in_range bbc) s -> In e s -> ~ no_bucket bbc nb dim s e.
  Proof.
    intros Hdim Hr He (bl & Ebl & HF).
    assert (Hne : s <> []) by (intros ->; destruct He).
    destruct (bl_spec dim s bl Hne Hr Ebl) as (Fbl & Pbl & Bbl & Abl). apply Rabs_le_iff in Abl.
    destruct (extent dim s Hne Hr) as (X1 & X2 & X3).
    pose proof m_pos as Pm. pose proof m_M as HmM. pose proof M_pos as PM. pose proof eta_m as He0.
    pose proof eta_pos as Pe. pose proof uro_pos as Pu.
    rewrite Forall_forall in Hr. pose proof (Hr e He) as Hre.
    destruct (box_of dim e Hre) as ((Fl & Bl) & (Fh & Bh) & Hw).
    apply Rabs_le_iff in Bl, Bh. fold M in Bl, Bh.
    pose proof (gmax_ge dim s e He) as G1. pose proof (gmin_le dim s e He) as G2.
    (* the centroid *)
    set (c := centroid (elo dim e) (ehi dim e)).
    assert (Hc : is_finite c = true /\ B2R (elo dim e) <= B2R c
                 /\ B2R c <= (B2R (elo dim e) + B2R (ehi dim e)) / 2 + 3.1 * m).
    { unfold c, centroid. set (l := elo dim e) in *. set (h := ehi dim e) in *.
      destruct (minus_val (k + 1) h l) as (Ew & Fw & Bw); auto; try lia.
      { rewrite bpow_shift. change (bpow radix2 1) with 2. fold M. apply Rabs_le_iff. lra. }
      set (w := nsub h l) in *.
      assert (Aw : Rabs (B2R w - (B2R h - B2R l)) <= 2.001 * m).
      { rewrite Ew. eapply Rle_trans; [apply (rnd_abs _ (2 * M)); apply Rabs_le_iff; lra|].
        replace (uro * (2 * M)) with (2 * m) by (unfold m; ring). lra. }
      apply Rabs_le_iff in Aw.
      destruct half_B as (F2 & E2).
      destruct (mult_val (k + 1) nhalf w) as (Eh & Fhh & Bhh); auto; try lia.
      { rewrite E2. rewrite Rabs_mult, (Rabs_pos_eq (/ 2)) by lra. pose proof (Rabs_pos (B2R w)). lra. }
      set (hw := nmul nhalf w) in *. rewrite E2 in Eh.
      assert (Ah : Rabs (B2R hw - / 2 * B2R w) <= 1.01 * m).
      { rewrite Eh. eapply Rle_trans; [apply (rnd_abs _ (1.001 * M)); apply Rabs_le_iff; lra|].
        replace (uro * (1.001 * M)) with (1.001 * m) by (unfold m; ring). lra. }
      apply Rabs_le_iff in Ah.
      assert (Ph : 0 <= B2R hw).
      { rewrite Eh. rewrite <- rnd_0. apply rnd_mono. lra. }
      destruct (plus_val (k + 2) l hw) as (Ec & Fc & Bc); auto; try lia.
      { rewrite bpow_shift. change (bpow radix2 2) with 4. fold M. apply Rabs_le_iff. lra. }
      split; [exact Fc|]. rewrite Ec. split; [apply rnd_ge; lra|].
      assert (Ac : Rabs (rnd (B2R l + B2R hw) - (B2R l + B2R hw)) <= 1.02 * m).
      { eapply Rle_trans; [apply (rnd_abs _ (1.01 * M)); apply Rabs_le_iff; lra|].
        replace (uro * (1.01 * M)) with (1.01 * m) by (unfold m; ring). lra. }
      apply Rabs_le_iff in Ac. lra. }
    destruct Hc as (Fc & C1 & C2).
    (* the limits *)
    set (lo := GMin dim s) in *.
    pose proof (gmin_fin dim s) as Flo. fold lo in Flo.
    assert (HL : forall i, (0 <= i <= nb)%Z -> is_finite (limit bl lo i) = true
               /\ Rabs (B2R (limit bl lo i) - (IZR i * B2R bl + B2R lo)) <= 5.1 * m).
    { intros i Hi. destruct (Zb_exact i ltac:(lia)) as (Fi & Ei). unfold limit. change (nofZ i) with (Zb i).
      assert (Hib : 0 <= IZR i * B2R bl <= IZR nb * B2R bl).
      { split; [apply Rmult_le_pos; [apply IZR_le; lia|lra]|]. apply Rmult_le_compat_r; [lra|]. apply IZR_le; lia. }
      destruct (mult_val (k + 2) (Zb i) bl) as (EP & FP & BP); auto; try lia.
      { rewrite Ei, bpow_shift. change (bpow radix2 2) with 4. fold M. apply Rabs_le_iff. lra. }
      rewrite Ei in EP.
      set (P := nmul (Zb i) bl) in *.
      assert (AP : Rabs (B2R P - IZR i * B2R bl) <= 2.01 * m).
      { rewrite EP. eapply Rle_trans; [apply (rnd_abs _ (2.001 * M)); apply Rabs_le_iff; lra|].
        replace (uro * (2.001 * M)) with (2.001 * m) by (unfold m; ring). lra. }
      apply Rabs_le_iff in AP.
      destruct (plus_val (k + 3) P lo) as (ES & FS & BS); auto; try lia.
      { rewrite bpow_shift. change (bpow radix2 3) with 8. fold M. apply Rabs_le_iff. lra. }
      split; [exact FS|]. rewrite ES.
      assert (AS : Rabs (rnd (B2R P + B2R lo) - (B2R P + B2R lo)) <= 3.02 * m).
      { eapply Rle_trans; [apply (rnd_abs _ (3.01 * M)); apply Rabs_le_iff; lra|].
        replace (uro * (3.01 * M)) with (3.01 * m) by (unfold m; ring). lra. }
      apply Rabs_le_iff in AS. apply Rabs_le_iff. lra. }
    assert (H0 : B2R (limit bl lo 0) = B2R lo).
    { unfold limit. change (nofZ 0) with (Zb 0). destruct (Zb_exact 0 ltac:(lia)) as (Fi & Ei).
      destruct (mult_val 0 (Zb 0) bl) as (EP & FP & BP); auto; try lia.
      { rewrite Ei, Rmult_0_l, Rabs_R0. apply bpow_ge_0. }
      rewrite Ei, Rmult_0_l, rnd_0 in EP.
      destruct (plus_val k (nmul (Zb 0) bl) lo) as (ES & FS & BS); auto; try lia.
      { rewrite EP, Rplus_0_l. apply Rabs_le_iff. fold M. lra. }
      rewrite ES, EP, Rplus_0_l. apply round_generic; [exact _|apply generic_format_B2R]. }
    destruct (HL nb ltac:(lia)) as (Fnb & Anb). apply Rabs_le_iff in Anb.
    assert (Hlast : B2R c < B2R (limit bl lo nb)) by lra.
    (* the first limit above the centroid *)
    assert (HX : forall n, (Z.of_nat n <= nb)%Z ->
              (exists i, (0 <= i < Z.of_nat n)%Z /\ B2R (limit bl lo i) <= B2R c < B2R (limit bl lo (i + 1)))
              \/ B2R (limit bl lo (Z.of_nat n)) <= B2R c).
    { induction n as [|n IH]; intros Hn.
      - right. change (Z.of_nat 0) with 0%Z. rewrite H0. lra.
      - destruct IH as [(i & Hi & A)|A]; [lia|left; exists i; split; [lia|auto]|].
        destruct (Rle_lt_dec (B2R (limit bl lo (Z.of_nat (S n)))) (B2R c)) as [B|B]; [now right|].
        left. exists (Z.of_nat n). split; [lia|]. split; auto.
        replace (Z.of_nat n + 1)%Z with (Z.of_nat (S n)) by lia. exact B. }
    destruct (HX (Z.to_nat nb)) as [(i & Hi & A & B)|A]; [lia| |rewrite Z2Nat.id in A by lia; lra].
    rewrite Z2Nat.id in Hi by lia.
    rewrite Forall_forall in HF. specialize (HF _ (make_buckets_in bl lo i Hi)).
    unfold ptest in HF. destruct (aget_ok_pos bbc e Hre) as (b & E & _). rewrite E in HF.
    unfold in_bucket in HF. cbn [bMin bMax] in HF.
    replace (centroid (blo b dim) (bhi b dim)) with c in HF
      by (unfold c, PBuild.elo, PBuild.ehi; now rewrite E).
    destruct (HL i ltac:(lia)) as (Fi & _). destruct (HL (i + 1)%Z ltac:(lia)) as (Fi1 & _).
    rewrite nleb_B, nltb_B in HF by auto. rewrite Rle_bool_true, Rlt_bool_true in HF by auto. discriminate.
  Qed.

  Lemma ndiv_ok (x bl : b64) : is_finite bl = true -> 0 < B2R bl -> ndiv x bl = Ok (ndivraw x bl).
  Proof.
    intros F P. unfold ndiv. rewrite neqb_B by auto. destruct (Zb_exact 0 ltac:(lia)) as (_ & E).
    change (nofZ 0) with (Zb 0). rewrite E. rewrite Req_bool_false by lra. reflexivity.
  Qed.

  Lemma plane_kept bs root_size (L R : b64) bl : is_finite bl = true -> 0 < B2R bl -> forall n i c p nl,
    (1 <= i)%Z -> (i + Z.of_nat n = zlen bs)%Z -> (1 <= p < zlen bs)%Z ->
    exists c' p' nl', for_loop n i (plane_step bs root_size L R bl) (c, Some p, nl) = Ok (c', Some p', nl')
        /\ (1 <= p' < zlen bs)%Z.
  Proof.
    intros F P. induction n as [|n IH]; intros i c p nl Hi Hm Hp.
    - exists c, p, nl. auto.
    - cbn [for_loop]. unfold plane_step at 1.
      destruct (lget_in_range bs (i - 1)) as (b1 & E1); [lia|].
      destruct (lget_in_range bs i) as (b2 & E2); [lia|].
      rewrite E1, E2. cbn [bind]. rewrite !ndiv_ok by auto. cbn [bind].
      destruct (nltb _ c); cbn [bind]; apply IH; lia.
  Qed.

  Lemma bl_big dim s bl : s <> [] -> Forall (in_range bbc) s ->
    ndiv (nsub (GMax dim s) (GMin dim s)) (nofZ nb) = Ok bl -> bpow radix2 (k - 101) <= B2R bl.
  Proof.
    intros Hne Hr Ebl. destruct (bl_spec dim s bl Hne Hr Ebl) as (Fbl & Pbl & Bbl & Abl). apply Rabs_le_iff in Abl.
    destruct (extent dim s Hne Hr) as (X1 & X2 & X3). pose proof m_pos.
    assert (Hn : IZR nb * B2R bl <= bpow radix2 52 * B2R bl).
    { apply Rmult_le_compat_r; [lra|]. change (bpow radix2 52) with (IZR (2 ^ 52)). apply IZR_le. lia. }
    assert (Hx : 16 * m <= bpow radix2 52 * B2R bl) by lra.
    apply Rmult_le_reg_l with (bpow radix2 52); [apply bpow_gt_0|].
    rewrite <- bpow_plus. eapply Rle_trans; [|exact Hx]. rewrite m_eq.
    replace (52 + (k - 101))%Z with (4 + (k - 53))%Z by lia. rewrite bpow_plus. right. reflexivity.
  Qed.

  (** the scaled extents of a bucket *)
  Lemma volume_bound (x y bl : b64) : bounded k x -> bounded k y -> is_finite bl = true ->
    bpow radix2 (k - 101) <= B2R bl -> bounded 102 (ndivraw (nsub x y) bl).
  Proof.
    intros (Fx & Bx) (Fy & By) Fb Hb.
    assert (Hz : Rabs (B2R x - B2R y) <= bpow radix2 (k + 1)).
    { rewrite bpow_shift. change (bpow radix2 1) with 2. apply Rabs_le_iff in Bx, By. apply Rabs_le_iff. lra. }
    destruct (minus_val (k + 1) x y) as (_ & Fd & Bd); auto; try lia.
    pose proof (bpow_gt_0 radix2 (k - 101)) as Pb.
    apply (div_val 102); auto; try lia; try lra.
    unfold Rdiv. rewrite Rabs_mult, Rabs_inv, (Rabs_pos_eq (B2R bl)) by lra.
    apply Rmult_le_reg_r with (B2R bl); [lra|]. rewrite Rmult_assoc, Rinv_l, Rmult_1_r by lra.
    eapply Rle_trans; [exact Bd|]. apply Rle_trans with (bpow radix2 102 * bpow radix2 (k - 101)).
    - rewrite <- bpow_plus. apply bpow_le. lia.
    - apply Rmult_le_compat_l; [apply bpow_ge_0|auto].
  Qed.

  Lemma count_bound n : (0 <= n <= 2 ^ 53)%Z -> bounded 53 (nofZ n : b64).
  Proof.
    intros Hn. destruct (Zb_exact n ltac:(lia)) as (F & E). split; [exact F|].
    change (nofZ n) with (Zb n). rewrite E, Rabs_pos_eq by (apply IZR_le; lia).
    change (bpow radix2 53) with (IZR (2 ^ 53)). apply IZR_le. lia.
  Qed.

  Lemma bounded_prod j l (x y : b64) : bounded j x -> bounded l y -> (-1074 <= j + l < 1024)%Z ->
    bounded (j + l) (nmul x y).
  Proof.
    intros (Fx & Bx) (Fy & By) H. apply mult_val; auto.
    rewrite Rabs_mult, bpow_plus. apply Rmult_le_compat; auto using Rabs_pos.
  Qed.

  Lemma split_total dim off bs s root bl : s <> [] -> Forall (in_range bbc) s -> NoDup s ->
    ndiv (nsub (GMax dim s) (GMin dim s)) (nofZ nb) = Ok bl ->
    forall s', Permutation s s' -> Segs bbc dim off bs s' -> Forall (fun b => (0 < bsize b)%Z) bs ->
    (2 <= zlen bs)%Z -> nsize root = zlen s ->
    exists r, split_plane bs root (GMax dim s) (GMin dim s) bl = Ok r.
  Proof.
    intros Hne Hr Hnd Ebl s' HP HS HF Hl Hroot.
    destruct (bl_spec dim s bl Hne Hr Ebl) as (Fbl & Pbl & Bbl & Abl).
    pose proof (bl_big dim s bl Hne Hr Ebl) as Hbig.
    destruct (extent dim s Hne Hr) as (X1 & X2 & X3). pose proof m_pos as Pm.
    unfold split_plane.
    assert (HX : exists c' p' nl', for_range 1 (zlen bs)
       (plane_step bs (nsize root) (GMax dim s) (GMin dim s) bl) (nfmax, None, 0%Z) = Ok (c', Some p', nl')
        /\ (1 <= p' < zlen bs)%Z).
    { unfold for_range. replace (Z.to_nat (zlen bs - 1)) with (S (Z.to_nat (zlen bs - 2))) by lia.
      cbn [for_loop]. unfold plane_step at 1.
      destruct (lget_in_range bs 0) as (b1 & E1); [lia|].
      destruct (lget_in_range bs 1) as (b2 & E2); [lia|].
      change (1 - 1)%Z with 0%Z. rewrite E1, E2. cbn [bind]. rewrite !ndiv_ok by auto. cbn [bind].
      assert (Hin : In b1 bs /\ In b2 bs).
      { destruct (aget_ok_pos bs 0 ltac:(lia)) as (x & Ex & Exn). destruct (aget_ok_pos bs 1 ltac:(lia)) as (y & Ey & Eyn).
        apply lget_ok in Ex; try lia. apply lget_ok in Ey; try lia.
        rewrite E1 in Ex. rewrite E2 in Ey. inversion Ex; inversion Ey; subst.
        split; eapply nth_error_In; eauto. }
      destruct Hin as (I1 & I2).
      destruct (Segs_in _ _ _ _ _ _ HS I1) as (g1 & S1 & M1 & N1 & C1).
      destruct (Segs_in _ _ _ _ _ _ HS I2) as (g2 & S2 & M2 & N2 & C2).
      rewrite Forall_forall in HF. pose proof (HF _ I1) as P1. pose proof (HF _ I2) as P2.
      assert (Hg1 : g1 <> []) by (intros ->; rewrite zlen_nil in S1; lia).
      assert (Hg2 : g2 <> []) by (intros ->; rewrite zlen_nil in S2; lia).
      assert (Hr1 : Forall (in_range bbc) g1).
      { rewrite Forall_forall in *. intros x Hx. apply Hr. eapply Permutation_in; [apply Permutation_sym; eauto|auto]. }
      assert (Hr2 : Forall (in_range bbc) g2).
      { rewrite Forall_forall in *. intros x Hx. apply Hr. eapply Permutation_in; [apply Permutation_sym; eauto|auto]. }
      destruct (extent dim g1 Hg1 Hr1) as (Y1 & Y2 & Y3). destruct (extent dim g2 Hg2 Hr2) as (W1 & W2 & W3).
      assert (Hsz : (0 <= bsize b1 <= zlen s)%Z).
      { split; [lia|]. unfold zlen in *. rewrite (Permutation_length HP).
        clear - HS I1 S1 M1. revert I1. induction HS as [|off b bs seg s Hs Hi HR HL Hr IH]; intros Hin; [destruct Hin|].
        rewrite app_length. destruct Hin as [->|Hin]; [unfold zlen in Hs; lia|]. specialize (IH Hin). lia. }
      assert (Hzn : (zlen s <= zlen bbc)%Z).
      { unfold zlen. apply inj_le. rewrite <- (iota_length (length bbc)). apply NoDup_incl_length; auto.
        intros x Hx. rewrite Forall_forall in Hr. apply iota_in. apply Hr in Hx. exact Hx. }
      assert (Bd : forall x : b64, is_finite x = true -> - M <= B2R x <= M -> bounded k x).
      { intros x Fx Hx. split; auto. apply Rabs_le_iff. exact Hx. }
      assert (Hlv : bounded 155 (nmul (ndivraw (nsub (bLmax b1) (GMin dim s)) bl) (nofZ (0 + bsize b1)))).
      { apply (bounded_prod 102 53); [|apply count_bound; lia|lia].
        apply volume_bound; auto; apply Bd; try apply gmin_fin; try (rewrite M1; apply gmax_fin); try rewrite M1; lra. }
      assert (Hrv : bounded 155 (nmul (ndivraw (nsub (GMax dim s) (bRmin b2)) bl) (nofZ (nsize root - (0 + bsize b1))))).
      { apply (bounded_prod 102 53); [|apply count_bound; lia|lia].
        apply volume_bound; auto; apply Bd; try apply gmax_fin; try (rewrite N2; apply gmin_fin); try rewrite N2; lra. }
      pose proof (bounded_plus 155 _ _ ltac:(lia) Hlv Hrv) as (Fc & Bc).
      match goal with |- context [nltb ?x nfmax] => set (cost := x) end.
      change (is_finite cost = true) in Fc. change (Rabs (B2R cost) <= bpow radix2 (155 + 1)) in Bc.
      assert (Hlt : nltb cost nfmax = true).
      { rewrite nltb_B by (auto using fmax_fin). apply Rlt_bool_true.
        eapply Rle_lt_trans; [apply Rle_abs|]. eapply Rle_lt_trans; [exact Bc|].
        rewrite B2R_fmax. apply Rlt_le_trans with (bpow radix2 (emax - 1)).
        - apply bpow_lt. unfold emax. lia.
        - assert (H2 : bpow radix2 emax = 2 * bpow radix2 (emax - 1)).
          { replace emax with (1 + (emax - 1))%Z at 1 by lia. rewrite bpow_plus. reflexivity. }
          assert (bpow radix2 (emax - prec) <= bpow radix2 (emax - 1)) by (apply bpow_le; unfold emax, prec; lia).
          lra. }
      rewrite Hlt. apply plane_kept; auto; lia. }
    destruct HX as (c & p & nl & -> & Hp). cbn [bind].
    destruct (Segs_fin bbc Hfin dim off bs s' HS) as (Hf1 & Hf2).
    unfold for_range.
    destruct (max_loop_ok bs Hf1 (Z.to_nat (p - 0)) 0 nfmin [] bs) as (v & E & _); auto.
    { unfold zlen in *. lia. } { apply fin_fmin. }
    rewrite E. cbn [bind].
    destruct (min_loop_ok bs Hf2 (Z.to_nat (zlen bs - p)) p nfmax (firstn (Z.to_nat p) bs) (skipn (Z.to_nat p) bs))
      as (w & E' & _); auto.
    { symmetry. apply firstn_skipn. } { unfold zlen in *. rewrite firstn_length. lia. }
    { unfold zlen in *. rewrite skipn_length. lia. } { apply fin_fmax. }
    rewrite E'. cbn [bind]. eauto.
  Qed.

  Theorem never_fails er : ~ Fails bbc nb er.
  Proof.
    intros (dim & s & Hdim & Hs & Hnd & Hr & H).
    assert (Hne : s <> []) by (intros ->; rewrite zlen_nil in Hs; lia).
    destruct H as [(_ & E)|[(_ & e & He & Hno)|(bl & off & bs & s' & root & Ebl & HP & HS & HF & Hl & Hroot & E & _)]].
    - change (neqb (Zb nb) (Zb 0) = true) in E. destruct (Zb_exact nb ltac:(lia)) as (F & V).
      destruct (Zb_exact 0 ltac:(lia)) as (F0 & V0). rewrite neqb_B, V, V0 in E by auto.
      apply Reqb_iff in E. apply eq_IZR in E. lia.
    - eapply has_bucket; eauto.
    - destruct (split_total dim off bs s root bl Hne Hr Hnd Ebl s' HP HS HF Hl Hroot) as (r & E'). congruence.
  Qed.
End Build.
