(** polygon_polygon_clip_area in binary64 for clippers with sides in any
    direction, when the corners keep clear of the sides. *)
From Coq Require Import Reals Lra Psatz.
From Flocq Require Import IEEE754.BinarySingleNaN Core.
From Verif Require Import RBase NumB64 NumRoom FBase FBuild MUtils MGeometry MAlgorithms FPoint FCut FClip FArea FSlant FCouple FSlantArea
  SpecPoly SpecArea SpecClear GTriangle GConvex GHull GArea GClip GMeasure GClose GClipArea GStage PClip PClipRun PClipFwd FOverlap.
Open Scope R_scope.

Lemma hull_inb X0 X1 Y0 Y1 vs p : (forall v, In v vs -> inb X0 X1 Y0 Y1 0 v) -> hull vs p -> inb X0 X1 Y0 Y1 0 p.
Proof.
  intros HF (ws & Hl & Hw & Hs & ->).
  assert (K : forall a c d, (forall v, In v vs -> 0 <= aff a c d v) -> 0 <= aff a c d (comb ws vs)).
  { intros a c d H. rewrite comb_aff by auto. now apply wsum_nonneg. }
  pose proof (K 1 0 (- X0)) as K1. pose proof (K (-1) 0 X1) as K2. pose proof (K 0 1 (- Y0)) as K3. pose proof (K 0 (-1) Y1) as K4.
  unfold aff in K1, K2, K3, K4.
  assert (G : forall v, In v vs -> X0 <= px v <= X1 /\ Y0 <= py v <= Y1) by (intros v Hv; destruct (HF v Hv); split; lra).
  split; split.
  - enough (0 <= 1 * px (comb ws vs) + 0 * py (comb ws vs) + - X0) by lra. apply K1. intros v Hv. specialize (G v Hv). lra.
  - enough (0 <= -1 * px (comb ws vs) + 0 * py (comb ws vs) + X1) by lra. apply K2. intros v Hv. specialize (G v Hv). lra.
  - enough (0 <= 0 * px (comb ws vs) + 1 * py (comb ws vs) + - Y0) by lra. apply K3. intros v Hv. specialize (G v Hv). lra.
  - enough (0 <= 0 * px (comb ws vs) + -1 * py (comb ws vs) + Y1) by lra. apply K4. intros v Hv. specialize (G v Hv). lra.
Qed.

Theorem float_clip_clear g (a b : list (point b64)) k W d :
  (-200 <= k <= 300)%Z -> bpow radix2 (k - 42) <= W <= bpow radix2 (k + 1) ->
  Forall (bpt k) a -> Forall (bpt k) b -> spanning W (map rp a ++ map rp b) ->
  convex_ccw (map rp a) -> convex_ccw (map rp b) -> (length a + length b <= 64)%nat ->
  (forall u v, In (u, v) (poly_edges (map rp b)) -> bpow radix2 (-250) <= side_size u v) ->
  0 < d -> bpow radix2 (k - 41) * W <= d * d -> clear_corners d (map rp a) (map rp b) ->
  exists A, polygon_polygon_clip_area g a b = Ok A /\ is_finite A = true
    /\ exists A', area_of (fun p => hull (map rp a) p /\ hull (map rp b) p) A'
        /\ Rabs (B2R A - A') <= INR (length b) * (bpow radix2 (k - 36) * W).
Proof.
  intros Hk HW Ba Bb HS Ca Cb Lab HE Pd Hdd HC.
  assert (L3 : (3 <= length a)%nat) by (destruct Ca as (L & _); now rewrite map_length in L).
  assert (L3b : (3 <= length b)%nat) by (destruct Cb as (L & _); now rewrite map_length in L).
  set (m := uro * bpow radix2 (k + 1)).
  assert (Em : m = bpow radix2 (k - 52)). { unfold m, uro. rewrite <- bpow_plus. f_equal. lia. }
  assert (Pm : 0 < m) by (rewrite Em; apply bpow_gt_0).
  assert (Hm42 : 1024 * m = bpow radix2 (k - 42)). { rewrite Em. change 1024 with (bpow radix2 10). rewrite <- bpow_plus. f_equal. lia. }
  assert (Hm41 : 2048 * m = bpow radix2 (k - 41)). { rewrite Em. change 2048 with (bpow radix2 11). rewrite <- bpow_plus. f_equal. lia. }
  assert (Hm36 : 65536 * m = bpow radix2 (k - 36)). { rewrite Em. change 65536 with (bpow radix2 16). rewrite <- bpow_plus. f_equal. lia. }
  assert (Hmk : 1000000 * m <= bpow radix2 k).
  { rewrite Em. apply Rle_trans with (bpow radix2 20 * bpow radix2 (k - 52)).
    - apply Rmult_le_compat_r; [apply bpow_ge_0|]. change (bpow radix2 20) with 1048576. lra.
    - rewrite <- bpow_plus. apply bpow_le. lia. }
  rewrite <- Hm42 in HW. rewrite <- Hm41 in Hdd. rewrite <- Hm36.
  assert (PW : 0 < W) by lra.
  assert (PWm : 0 < W * m) by (now apply Rmult_lt_0_compat).
  (* d against m *)
  assert (Hdm : 1448 * m <= d).
  { destruct (Rle_dec (1448 * m) d) as [|N]; auto. exfalso.
    assert (d * d < 1448 * m * (1448 * m)) by (apply Rmult_le_0_lt_compat; lra).
    assert (m * (1024 * m) <= m * W) by (apply Rmult_le_compat_l; lra). assert (0 < m * m) by (now apply Rmult_lt_0_compat). lra. }
  set (ep := 860 * (W * m) / d).
  assert (Eep : ep * d = 860 * (W * m)) by (unfold ep; field; lra).
  assert (Pep : 0 <= ep) by (unfold ep; apply Rmult_le_pos; [lra|left; now apply Rinv_0_lt_compat]).
  assert (Hdep : 2 * ep + 100 * m <= d).
  { apply (Rmult_le_reg_r d); auto. replace ((2 * ep + 100 * m) * d) with (2 * (ep * d) + 100 * m * d) by ring. rewrite Eep.
    assert (100 * m * d <= d * d * (100 / 1448)).
    { replace (d * d * (100 / 1448)) with (d / 1448 * 100 * d) by field. apply Rmult_le_compat_r; lra. }
    lra. }
  set (all := map rp a ++ map rp b) in *.
  assert (Hall : all <> []) by (unfold all; destruct a; [cbn in L3; lia|discriminate]).
  destruct (least px all Hall) as (pL & IL & HL). destruct (least (fun p => - px p) all Hall) as (pR & IR & HR).
  destruct (least py all Hall) as (pB & IB & HB). destruct (least (fun p => - py p) all Hall) as (pT & IT & HT).
  assert (Bd : forall p, In p all -> Rabs (px p) <= bpow radix2 k /\ Rabs (py p) <= bpow radix2 k).
  { intros p Hp. unfold all in Hp. rewrite Forall_forall in Ba, Bb. apply in_app_or in Hp as [Hp|Hp]; apply in_map_iff in Hp as (x & <- & Hx).
    - destruct (Ba x Hx) as ((_ & B1) & (_ & B2)). auto.
    - destruct (Bb x Hx) as ((_ & B1) & (_ & B2)). auto. }
  assert (IN : forall p, In p all -> inb (px pL) (px pR) (py pB) (py pT) 0 p).
  { intros p Hin. pose proof (HL _ Hin). pose proof (HR _ Hin). pose proof (HB _ Hin). pose proof (HT _ Hin). cbn beta in *. split; lra. }
  assert (FF : forall p, Forall (bpt k) p -> (forall x, In x p -> In (rp x) all) -> Forall (finb (px pL) (px pR) (py pB) (py pT) 0) p).
  { intros l Hl Hin. apply Forall_forall. rewrite Forall_forall in Hl. intros x Hx. destruct (Hl x Hx) as ((F1 & _) & (F2 & _)).
    split; auto. }
  set (work := np_empty (gpt g) CLIP_MAX_N_VERTEX).
  assert (LW : length work = 64%nat) by (unfold work, np_empty; rewrite map_length, seq_length; reflexivity).
  assert (Hb : b <> []) by (destruct b; [cbn in L3b; lia|discriminate]).
  assert (Ha : a <> []) by (destruct a; [cbn in L3; lia|discriminate]).
  set (r := last b (Pt (nofZ 0) (nofZ 0))).
  assert (Hlast : aget b (zlen b - 1)%Z = Ok r).
  { unfold r. destruct (exists_last Hb) as (l & x & E). rewrite E. rewrite last_last. unfold zlen. rewrite app_length. cbn [length].
    replace (Z.of_nat (length l + 1) - 1)%Z with (Z.of_nat (length l)) by lia. apply aget_nat.
    rewrite nth_error_app2 by lia. now rewrite Nat.sub_diag. }
  assert (Ir : In r b) by (unfold r; destruct (exists_last Hb) as (l & x & E); rewrite E, last_last; apply in_or_app; right; now left).
  assert (ER : rp r = last (map rp b) (Pt 0 0)).
  { unfold r. destruct (exists_last Hb) as (l & x & E). rewrite E, map_app. cbn [map]. now rewrite !last_last. }
  assert (EA : rp (last a (Pt (nofZ 0) (nofZ 0))) = last (map rp a) (Pt 0 0)).
  { destruct (exists_last Ha) as (l & x & E). rewrite E, map_app. cbn [map]. now rewrite !last_last. }
  assert (Hrun : polygon_polygon_clip_area g a b = clip_loop r b work (a ++ skipn (length a) work) (zlen a)).
  { unfold polygon_polygon_clip_area, allocate_clip_polygon. fold work.
    unfold zlen at 1. rewrite (copy_firstn a work (length a)) by (auto; lia). cbn [bind]. rewrite firstn_all, Hlast. reflexivity. }
  rewrite Hrun.
  pose proof (HS pR pL IR IL) as (W1 & _). pose proof (HS pT pB IT IB) as (_ & W2). apply Rabs_le_iff in W1, W2.
  pose proof (Bd _ IL) as (BL & _). pose proof (Bd _ IR) as (BR & _). pose proof (Bd _ IB) as (_ & BB). pose proof (Bd _ IT) as (_ & BT).
  apply Rabs_le_iff in BL, BR, BB, BT.
  assert (Ek1 : bpow radix2 (k + 1) = 2 * bpow radix2 k) by (rewrite bpow_plus; change (bpow radix2 1) with 2; ring).
  assert (Ek2 : bpow radix2 (k + 1 + 1) = 4 * bpow radix2 k) by (rewrite !bpow_plus; change (bpow radix2 1) with 2; ring).
  assert (H400 : bpow radix2 (-400) <= bpow radix2 (k - 42)) by (apply bpow_le; lia).
  assert (Nb : INR (length b) <= 61) by (replace 61 with (INR 61) by (cbn; lra); apply le_INR; lia).
  destruct (clip_loop_clear (k + 1) (px pL) (px pR) (py pB) (py pT) (400 * m) (2 * W) d (796 * m) ep ltac:(lia)) with
    (l := b) (r := r) (P := map rp a) (P' := a) (subject := work) (out := a ++ skipn (length a) work) (h := 0) (eta0 := 0) (rho := 64 * m) as (A & EAl & FA & HA).
  - rewrite Ek1. lra.
  - rewrite Ek1. lra.
  - lra.
  - rewrite Ek2. lra.
  - lra.
  - auto.
  - fold m. lra.
  - fold m. apply Req_le. unfold ep. field. lra.
  - apply FF; [constructor; auto; rewrite Forall_forall in Bb; now apply Bb|].
    intros x Hx. unfold all. apply in_or_app. right. apply in_map. destruct Hx as [<-|Hx]; auto.
  - intros u v Huv. apply HE. unfold poly_edges. now rewrite <- ER.
  - auto.
  - intros p Hp. apply (in_poly_hull _ p Ca) in Hp. eapply hull_inb; [|exact Hp]. intros v Hv. apply IN. unfold all. apply in_or_app. now left.
  - apply FF; auto. intros x Hx. unfold all. apply in_or_app. left. now apply in_map.
  - lra.
  - fold m. assert (INR (length b) * (6 * m) <= 61 * (6 * m)) by (apply Rmult_le_compat_r; lra). lra.
  - rewrite map_length. lia.
  - lia.
  - split.
    + rewrite EA. now apply near_refl.
    + rewrite <- EA. apply (coup_weaken 0 0); [fold m; lra|auto|apply coup_self].
  - fold m. lra.
  - fold m. assert (INR (length b) * (12 * m) <= 61 * (12 * m)) by (apply Rmult_le_compat_r; lra). lra.
  - rewrite firstn_app, Nat.sub_diag, firstn_all. cbn. apply app_nil_r.
  - rewrite app_length, skipn_length. lia.
  - auto.
  - lra.
  - now apply convex_nearly.
  - intros pre u v post Epre x Hx. apply (HC pre u v post); [unfold poly_edges; now rewrite <- ER|].
    eapply corner_ext; [|exact Hx]. intros p. cbn beta. now rewrite (in_poly_hull _ p Ca).
  - exists A. split; auto. split; auto. exists (area_in (chain (rp r) (map rp b)) (map rp a)). split.
    + assert (Da : dd (map rp a) = map rp a) by (apply dd_id; [apply Ca|destruct Ca; lia]).
      eapply area_of_ext; [|apply (area_in_exact (map rp b) (rp r) (map rp a))].
      * intros p. cbn beta. rewrite Da. rewrite <- (in_poly_hull _ p Ca), <- (in_poly_hull _ p Cb), ER. reflexivity.
      * now rewrite Da.
      * intros u v Huv. rewrite ER in Huv. destruct Cb as (L & N & _). apply (edges_neq (map rp b) u v N); [lia|exact Huv].
    + eapply Rle_trans; [exact HA|]. unfold cost2. fold m.
      assert (N3 : 3 <= INR (length b)) by (replace 3 with (INR 3) by (cbn; lra); apply le_INR; lia).
      assert (G : uro * (2 * W * (2 * W)) <= 4 * (W * m)).
      { replace (uro * (2 * W * (2 * W))) with (4 * (W * (uro * W))) by ring. assert (uro * W <= m) by (unfold m; apply Rmult_le_compat_l; [pose proof uro_pos; lra|lra]).
        assert (W * (uro * W) <= W * m) by (apply Rmult_le_compat_l; lra). lra. }
      assert (3 * (W * m) <= INR (length b) * (W * m)) by (apply Rmult_le_compat_r; lra).
      set (n := INR (length b)) in *. replace (n * (65536 * m * W)) with (65536 * (n * (W * m))) by ring.
      replace (n * (64 * (204 * (2 * W * m)))) with (26112 * (n * (W * m))) by ring.
      replace (n * (72 * (2 * W * m))) with (144 * (n * (W * m))) by ring. lra.
Qed.
