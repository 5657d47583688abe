(** The computed overlap of two polygons in binary64, when the clipping polygon
    has axis-parallel sides. *)
From Coq Require Import Reals Lra Psatz.
From Flocq Require Import IEEE754.BinarySingleNaN Core.
From Verif Require Import RBase NumB64 NumRoom FBase FBuild MGeometry MAlgorithms FPoint FCut FClip
  SpecPoly SpecArea GTriangle GConvex GHull GArea GClip GClipArea GMeasure GClose PClip PClipRun.
Open Scope R_scope.

(** ** The area of a polygon *)
Section PolyArea.
  Local Notation bounded := NumRoom.bounded.
  Variables (k : Z) (W : R).
  Hypothesis Hk : (-251 <= k <= 400)%Z.
  Hypothesis HW : bpow radix2 (-400) <= W <= bpow radix2 (k + 1).
  Let q := uro * (W * W).

  Lemma Wpos : 0 < W. Proof. pose proof (bpow_gt_0 radix2 (-400)). lra. Qed.
  Lemma qpos : 0 < q. Proof. pose proof Wpos. apply Rmult_lt_0_compat; [apply uro_pos|]. now apply Rmult_lt_0_compat. Qed.
  Lemma eta_q : eta <= q / 1000.
  Proof.
    pose proof Wpos. unfold q.
    assert (H1 : bpow radix2 (-400) * bpow radix2 (-400) <= W * W) by (apply Rmult_le_compat; try apply bpow_ge_0; lra).
    assert (H2 : uro * (bpow radix2 (-400) * bpow radix2 (-400)) <= uro * (W * W)) by (apply Rmult_le_compat_l; [left; apply uro_pos|auto]).
    unfold uro, eta in *. rewrite <- !bpow_plus in H2.
    apply Rle_trans with (bpow radix2 (-10) * bpow radix2 (-53 + (-400 + -400))); [rewrite <- bpow_plus; apply bpow_le; lia|].
    change (bpow radix2 (-10)) with (/ 1024). pose proof (bpow_gt_0 radix2 (-53 + (-400 + -400))). lra.
  Qed.

  (** a vector close to an exact one *)
  Definition vec_ok (U : point b64) (u : pt) : Prop :=
    bounded (k + 2) (px U) /\ bounded (k + 2) (py U) /\ Rabs (px u) <= W /\ Rabs (py u) <= W
    /\ Rabs (B2R (px U) - px u) <= uro * W /\ Rabs (B2R (py U) - py u) <= uro * W.

  Lemma prod_ok (x y : b64) (x0 y0 : R) : bounded (k + 2) x -> bounded (k + 2) y -> Rabs x0 <= W -> Rabs y0 <= W ->
    Rabs (B2R x - x0) <= uro * W -> Rabs (B2R y - y0) <= uro * W ->
    is_finite (nmul x y) = true /\ Rabs (B2R (nmul x y) - x0 * y0) <= 3.1 * q.
  Proof.
    intros Bx By Hx Hy Dx Dy. pose proof Wpos as PW. pose proof qpos as Pq. pose proof eta_q as Eq. pose proof uro_small as Su. pose proof uro_pos as Pu.
    assert (Hq : uro * q <= / 1000000 * q) by (apply Rmult_le_compat_r; lra).
    assert (HxB : Rabs (B2R x) <= W + uro * W) by (replace (B2R x) with ((B2R x - x0) + x0) by ring; pose proof (add_abs _ _ _ _ Dx Hx); lra).
    assert (HyB : Rabs (B2R y) <= W + uro * W) by (replace (B2R y) with ((B2R y - y0) + y0) by ring; pose proof (add_abs _ _ _ _ Dy Hy); lra).
    destruct (mult_val (k + k + 4) x y) as (E & B); [lia|apply Bx|apply By| |].
    { replace (k + k + 4)%Z with ((k + 2) + (k + 2))%Z by lia. rewrite bpow_plus. apply mul_abs; [apply Bx|apply By]. }
    split; [apply B|]. rewrite E.
    assert (N1 : Rabs (B2R x * B2R y - x0 * y0) <= 2.01 * q).
    { replace (B2R x * B2R y - x0 * y0) with ((B2R x - x0) * B2R y + x0 * (B2R y - y0)) by ring.
      pose proof (add_abs _ _ _ _ (mul_abs _ _ _ _ Dx HyB) (mul_abs _ _ _ _ Hx Dy)) as G.
      replace (uro * W * (W + uro * W) + W * (uro * W)) with (2 * q + uro * q) in G by (unfold q; lra). lra. }
    pose proof (mul_abs _ _ _ _ HxB HyB) as N2. pose proof (rnd_abs _ _ N2) as N3.
    replace (uro * ((W + uro * W) * (W + uro * W))) with (q + 2 * (uro * q) + uro * (uro * q)) in N3 by (unfold q; ring).
    assert (uro * (uro * q) <= uro * q). { rewrite <- (Rmult_1_l (uro * q)) at 2. apply Rmult_le_compat_r; [apply Rmult_le_pos; lra|lra]. }
    replace (rnd (B2R x * B2R y) - x0 * y0) with ((rnd (B2R x * B2R y) - B2R x * B2R y) + (B2R x * B2R y - x0 * y0)) by ring.
    pose proof (add_abs _ _ _ _ N3 N1). lra.
  Qed.

  Lemma W_top : W * W <= bpow radix2 (k + k + 2).
  Proof. replace (k + k + 2)%Z with ((k + 1) + (k + 1))%Z by lia. rewrite bpow_plus. pose proof Wpos. apply Rmult_le_compat; lra. Qed.
  Lemma qW : q <= (W * W) / 1000000.
  Proof. unfold q. pose proof Wpos. pose proof uro_small. assert (0 <= W * W) by (apply Rmult_le_pos; lra).
    pose proof (Rmult_le_compat_r (W * W) uro (/ 1000000)). lra. Qed.

  Lemma cross_ok U V u v : vec_ok U u -> vec_ok V v ->
    is_finite (cross_product U V) = true
    /\ Rabs (B2R (cross_product U V) - (px u * py v - py u * px v)) <= 9 * q
    /\ Rabs (px u * py v - py u * px v) <= 2 * (W * W).
  Proof.
    intros (U1 & U2 & U3 & U4 & U5 & U6) (V1 & V2 & V3 & V4 & V5 & V6). unfold cross_product.
    pose proof Wpos as PW. pose proof qpos as Pq. pose proof uro_small as Su. pose proof uro_pos as Pu.
    pose proof W_top as HT. pose proof qW as HqW.
    destruct (prod_ok (px U) (py V) (px u) (py v)) as (F1 & N1); auto. destruct (prod_ok (py U) (px V) (py u) (px v)) as (F2 & N2); auto.
    set (a := nmul (px U) (py V)) in *. set (b := nmul (py U) (px V)) in *.
    pose proof (mul_abs _ _ _ _ U3 V4) as M1. pose proof (mul_abs _ _ _ _ U4 V3) as M2.
    assert (HC : Rabs (px u * py v - py u * px v) <= 2 * (W * W)).
    { replace (px u * py v - py u * px v) with (px u * py v + - (py u * px v)) by ring.
      rewrite <- Rabs_Ropp in M2. pose proof (add_abs _ _ _ _ M1 M2). lra. }
    assert (HD : Rabs ((B2R a - B2R b) - (px u * py v - py u * px v)) <= 6.2 * q).
    { replace ((B2R a - B2R b) - (px u * py v - py u * px v)) with ((B2R a - px u * py v) + - (B2R b - py u * px v)) by ring.
      rewrite <- Rabs_Ropp in N2. pose proof (add_abs _ _ _ _ N1 N2). lra. }
    assert (HB : Rabs (B2R a - B2R b) <= 2 * (W * W) + 6.2 * q).
    { replace (B2R a - B2R b) with (((B2R a - B2R b) - (px u * py v - py u * px v)) + (px u * py v - py u * px v)) by ring.
      pose proof (add_abs _ _ _ _ HD HC). lra. }
    destruct (minus_val (k + k + 4) a b) as (E & B); [lia|auto|auto| |].
    { replace (k + k + 4)%Z with (2 + (k + k + 2))%Z by lia. rewrite bpow_plus. change (bpow radix2 2) with 4. lra. }
    split; [apply B|]. split; auto. rewrite E. destruct (rnd_minus a b) as (e & He & ->).
    replace ((B2R a - B2R b) * (1 + e) - (px u * py v - py u * px v)) with ((B2R a - B2R b) * e + ((B2R a - B2R b) - (px u * py v - py u * px v))) by ring.
    pose proof (add_abs _ _ _ _ (mul_abs _ _ _ _ HB He) HD) as G.
    replace ((2 * (W * W) + 6.2 * q) * uro) with (2 * q + 6.2 * (uro * q)) in G by (unfold q; ring).
    assert (uro * q <= / 1000000 * q) by (apply Rmult_le_compat_r; lra). lra.
  Qed.

  (** all points at most W apart *)
  Definition apart (l : list (point b64)) : Prop :=
    forall p p', In p l -> In p' l -> Rabs (B2R (px p) - B2R (px p')) <= W /\ Rabs (B2R (py p) - B2R (py p')) <= W.

  Lemma vec_diff p p' : bpt (k + 1) p -> bpt (k + 1) p' -> Rabs (B2R (px p) - B2R (px p')) <= W -> Rabs (B2R (py p) - B2R (py p')) <= W ->
    vec_ok (Pt (nsub (px p) (px p')) (nsub (py p) (py p'))) (Pt (B2R (px p) - B2R (px p')) (B2R (py p) - B2R (py p'))).
  Proof.
    intros (P1 & P2) (Q1 & Q2) H1 H2.
    assert (G : forall x y : b64, bounded (k + 1) x -> bounded (k + 1) y -> Rabs (B2R x - B2R y) <= W ->
      bounded (k + 2) (nsub x y) /\ Rabs (B2R (nsub x y) - (B2R x - B2R y)) <= uro * W).
    { intros x y Bx By H. destruct (minus_val (k + 2) x y) as (E & B); [lia|apply Bx|apply By| |].
      - replace (k + 2)%Z with ((k + 1) + 1)%Z by lia. rewrite bpow_plus. change (bpow radix2 1) with 2.
        destruct Bx as (_ & Bx). destruct By as (_ & By). apply Rabs_le_iff in Bx, By. apply Rabs_le_iff. lra.
      - split; auto. rewrite E. destruct (rnd_minus x y) as (e & He & ->).
        replace ((B2R x - B2R y) * (1 + e) - (B2R x - B2R y)) with (e * (B2R x - B2R y)) by ring. now apply mul_abs. }
    destruct (G _ _ P1 Q1 H1). destruct (G _ _ P2 Q2 H2). unfold vec_ok. cbn [px py]. auto 7.
  Qed.

  Lemma nabs_val (x : b64) : is_finite x = true -> is_finite (nabs x) = true /\ B2R (nabs x) = Rabs (B2R x).
  Proof. intros F. cbn. split; [now rewrite is_finite_Babs|]. apply B2R_Babs. Qed.

  (** u: the vertex before; the sign of U does not matter *)
  Lemma area_loop_ok a : bpt (k + 1) a -> forall l u U (area : b64), Forall (bpt (k + 1)) l ->
    (forall p, In p (u :: l) -> Rabs (B2R (px p) - B2R (px a)) <= W /\ Rabs (B2R (py p) - B2R (py a)) <= W) ->
    (vec_ok U (Pt (B2R (px u) - B2R (px a)) (B2R (py u) - B2R (py a))) \/ vec_ok U (Pt (B2R (px a) - B2R (px u)) (B2R (py a) - B2R (py u)))) ->
    is_finite area = true -> (length l <= 64)%nat -> 0 <= B2R area <= IZR (Z.of_nat (64 - length l)) * (2.1 * (W * W)) ->
    is_finite (polygon_area_loop a U l area) = true
    /\ Rabs (B2R (polygon_area_loop a U l area) - (B2R area + sumR (map (fun e => Rabs (orient (rp a) (fst e) (snd e))) (chain (rp u) (map rp l)))))
       <= IZR (Z.of_nat (length l)) * (150 * q)
    /\ 0 <= B2R (polygon_area_loop a U l area) <= 64 * (2.1 * (W * W)).
  Proof.
    intros Ba. pose proof Wpos as PW. pose proof qpos as Pq. pose proof uro_small as Su. pose proof uro_pos as Pu.
    pose proof W_top as HT. pose proof qW as HqW.
    induction l as [|c l IH]; intros u U area Bl Hw HU Fa Hl Ha.
    - cbn [polygon_area_loop map chain sumR length]. split; auto. rewrite Rplus_0_r, Rminus_diag_eq, Rabs_R0 by reflexivity.
      cbn [length] in Ha. change (Z.of_nat (64 - 0)) with 64%Z in Ha. split; [cbn; lra|exact Ha].
    - apply Forall_cons_iff in Bl as (Bc & Bl). cbn [polygon_area_loop].
      assert (HV : vec_ok (to_vector c a) (Pt (B2R (px a) - B2R (px c)) (B2R (py a) - B2R (py c)))).
      { destruct (Hw c (or_intror (or_introl eq_refl))) as (W1 & W2). apply vec_diff; auto; now rewrite Rabs_minus_sym. }
      set (V := to_vector c a) in *.
      assert (HC : is_finite (nabs (cross_product U V)) = true
        /\ Rabs (B2R (nabs (cross_product U V)) - Rabs (orient (rp a) (rp u) (rp c))) <= 9 * q
        /\ Rabs (orient (rp a) (rp u) (rp c)) <= 2 * (W * W)).
      { destruct HU as [HU|HU]; destruct (cross_ok U V _ _ HU HV) as (F & N & B); cbn [px py] in N, B; destruct (nabs_val _ F) as (F' & ->).
        - split; auto. replace (orient (rp a) (rp u) (rp c)) with
            (- ((B2R (px u) - B2R (px a)) * (B2R (py a) - B2R (py c)) - (B2R (py u) - B2R (py a)) * (B2R (px a) - B2R (px c))))
            by (unfold orient, rp; cbn [px py]; ring).
          rewrite Rabs_Ropp. split; auto. eapply Rle_trans; [apply Rabs_triang_inv2|exact N].
        - split; auto. replace (orient (rp a) (rp u) (rp c)) with
            ((B2R (px a) - B2R (px u)) * (B2R (py a) - B2R (py c)) - (B2R (py a) - B2R (py u)) * (B2R (px a) - B2R (px c)))
            by (unfold orient, rp; cbn [px py]; ring).
          split; auto. eapply Rle_trans; [apply Rabs_triang_inv2|exact N]. }
      destruct HC as (Fc & Nc & Mc). set (x := nabs (cross_product U V)) in *. set (o := Rabs (orient (rp a) (rp u) (rp c))) in *.
      assert (Ho : 0 <= o) by apply Rabs_pos.
      assert (Hx0 : 0 <= B2R x). { unfold x. cbn. rewrite B2R_Babs. apply Rabs_pos. }
      apply Rabs_le_iff in Nc.
      assert (Hlen : IZR (Z.of_nat (64 - length (c :: l))) + 1 = IZR (Z.of_nat (64 - length l))).
      { rewrite <- plus_IZR. f_equal. cbn [length] in *. lia. }
      assert (Hcap : IZR (Z.of_nat (64 - length (c :: l))) <= 63) by (apply IZR_le; cbn [length]; lia).
      assert (PWW : 0 < W * W) by (now apply Rmult_lt_0_compat).
      assert (Hs : 0 <= B2R area + B2R x <= 64 * (2.1 * (W * W))).
      { assert (IZR (Z.of_nat (64 - length (c :: l))) * (2.1 * (W * W)) <= 63 * (2.1 * (W * W))) by (apply Rmult_le_compat_r; lra). lra. }
      destruct (plus_val (k + k + 10) area x) as (Es & Bsum); [lia|auto|auto| |].
      { rewrite Rabs_pos_eq by lra. replace (k + k + 10)%Z with (8 + (k + k + 2))%Z by lia. rewrite bpow_plus. change (bpow radix2 8) with 256. lra. }
      destruct (rnd_plus area x) as (e & He & Er). rewrite <- Es in Er.
      set (area' := nadd area x) in *.
      assert (Na : Rabs (B2R area' - (B2R area + B2R x)) <= 135 * q).
      { rewrite Er. replace ((B2R area + B2R x) * (1 + e) - (B2R area + B2R x)) with (e * (B2R area + B2R x)) by ring.
        pose proof (mul_abs e (B2R area + B2R x) uro (64 * (2.1 * (W * W))) He ltac:(rewrite Rabs_pos_eq; lra)) as G.
        replace (uro * (64 * (2.1 * (W * W)))) with (134.4 * q) in G by (unfold q; lra). lra. }
      apply Rabs_le_iff in Na.
      assert (Ha' : 0 <= B2R area' <= IZR (Z.of_nat (64 - length l)) * (2.1 * (W * W))).
      { split; [rewrite Es, <- rnd_0; apply rnd_mono; lra|]. rewrite <- Hlen. lra. }
      destruct (IH c V area' Bl) as (F & N & B); auto.
      { intros p Hp. apply Hw. now right. }
      { apply Bsum. }
      { cbn [length] in Hl. lia. }
      split; auto. split; auto. cbn [map chain sumR fst snd length]. fold o.
      rewrite Nat2Z.inj_succ, succ_IZR. apply Rabs_le_iff in N. apply Rabs_le_iff. lra.
  Qed.

  Lemma polygon_area_ok P : (2 <= length P <= 64)%nat -> Forall (bpt (k + 1)) P -> apart P ->
    exists A, polygon_area P = Ok A /\ is_finite A = true
      /\ exists a, In a (map rp P) /\ hd_error (map rp P) = Some a
        /\ Rabs (B2R A - / 2 * sumR (map (fun e => Rabs (orient a (fst e) (snd e))) (poly_edges (map rp P)))) <= 5000 * q.
  Proof.
    intros HL BP HA. destruct P as [|a [|b l]]; cbn [length] in HL; try lia.
    apply Forall_cons_iff in BP as (Ba & BP). apply Forall_cons_iff in BP as (Bb & Bl).
    unfold polygon_area. eexists. split; [reflexivity|].
    pose proof Wpos as PW. pose proof qpos as Pq. pose proof uro_small as Su. pose proof uro_pos as Pu. pose proof eta_q as Eq.
    pose proof W_top as HT. pose proof qW as HqW. assert (PWW : 0 < W * W) by (now apply Rmult_lt_0_compat).
    destruct (Zb_exact 0 ltac:(cbv; discriminate)) as (F0 & E0).
    assert (HU : vec_ok (to_vector a b) (Pt (B2R (px b) - B2R (px a)) (B2R (py b) - B2R (py a)))).
    { apply vec_diff; auto; apply HA; [right; now left|now left|right; now left|now left]. }
    destruct (area_loop_ok a Ba l b (to_vector a b) (Zb 0) Bl) as (F & N & B); auto.
    { intros p Hp. apply HA; [right; auto|now left]. }
    { lia. }
    { rewrite E0. split; [lra|]. apply Rmult_le_pos; [apply IZR_le; lia|lra]. }
    rewrite E0, Rplus_0_l in N. change (nofZ 0 : b64) with (Zb 0). set (S := polygon_area_loop a (to_vector a b) l (Zb 0)) in *.
    destruct half_B as (Fh & Eh).
    destruct (mult_val (k + k + 10) nhalf S) as (Em & Bm); [lia|auto|auto| |].
    { rewrite Eh, Rabs_pos_eq by lra. replace (k + k + 10)%Z with (8 + (k + k + 2))%Z by lia. rewrite bpow_plus. change (bpow radix2 8) with 256. lra. }
    split; [apply Bm|]. exists (rp a). split; [now left|]. split; [reflexivity|].
    rewrite Em, Eh. set (X := sumR _) in N.
    assert (EX : sumR (map (fun e => Rabs (orient (rp a) (fst e) (snd e))) (poly_edges (map rp (a :: b :: l)))) = X).
    { cbn [map]. rewrite edges_cons. cbn [chain map sumR fst snd].
      rewrite orient_12. replace (orient (rp a) (last (rp b :: map rp l) (rp a)) (rp a)) with 0 by (unfold orient; ring).
      rewrite orient_11, Rabs_R0. unfold X. lra. }
    rewrite EX. clear EX.
    assert (Hn : IZR (Z.of_nat (length l)) * (150 * q) <= 64 * (150 * q)) by (apply Rmult_le_compat_r; [lra|]; apply IZR_le; lia).
    pose proof (rnd_abs (/ 2 * B2R S) (/ 2 * (64 * (2.1 * (W * W)))) ltac:(rewrite Rabs_pos_eq; lra)) as N3.
    replace (uro * (/ 2 * (64 * (2.1 * (W * W))))) with (67.2 * q) in N3 by (unfold q; lra).
    apply Rabs_le_iff in N, N3. apply Rabs_le_iff. lra.
  Qed.
End PolyArea.

(** ** All clipping steps *)
Lemma area_in_short K Q : (length Q < 3)%nat -> area_in K Q = 0.
Proof.
  intros H. destruct Q as [|a [|b [|c Q]]]; cbn [length] in H; try lia; unfold area_in, gsum, poly_edges; cbn.
  - reflexivity.
  - rewrite gs_same. lra.
  - rewrite (gs_anti K b a). lra.
Qed.

Lemma sum_abs_near (F : pt * pt -> R) m E : 0 <= m -> (forall e, In e E -> - m <= F e) ->
  Rabs (sumR (map F E) - sumR (map (fun e => Rabs (F e)) E)) <= INR (length E) * (2 * m).
Proof.
  intros Hm. induction E as [|e E IH]; intros H; [cbn; rewrite Rminus_diag_eq, Rabs_R0 by reflexivity; lra|].
  cbn [map sumR length]. rewrite S_INR. specialize (IH (fun e' H' => H e' (or_intror H'))).
  assert (G : Rabs (F e - Rabs (F e)) <= 2 * m).
  { pose proof (H e (or_introl eq_refl)). apply Rabs_le_iff. destruct (Rle_dec 0 (F e)); [rewrite (Rabs_pos_eq (F e)) by lra; lra|].
    rewrite (Rabs_left (F e)) by lra. lra. }
  apply Rabs_le_iff in IH, G. apply Rabs_le_iff. lra.
Qed.

Lemma edges_length (P : list pt) : length (poly_edges P) = length P.
Proof.
  assert (G : forall l (v : pt), length (chain v l) = length l) by (induction l; intros; cbn; auto).
  unfold poly_edges. apply G.
Qed.

(** a nearly convex polygon: the fan of absolute values is close to the signed area *)
Lemma nearly_area m P a : 0 <= m -> nearly m P -> hd_error P = Some a ->
  Rabs (/ 2 * sumR (map (fun e => Rabs (orient a (fst e) (snd e))) (poly_edges P)) - shoelace P) <= INR (length P) * m.
Proof.
  intros Hm HN Ha. destruct P as [|a' l]; [discriminate|]. injection Ha as ->.
  rewrite (shoelace_fan a). unfold fan_sum.
  pose proof (sum_abs_near (fun e => orient a (fst e) (snd e)) m (poly_edges (a :: l)) Hm) as G.
  rewrite edges_length in G.
  match type of G with ?A -> _ => assert (HA : A) end.
  { intros (u, v) He. cbn [fst snd]. rewrite edges_cons in He. destruct He as [E|He].
    - injection E as <- <-. rewrite orient_12 || idtac. replace (orient a (last l a) a) with 0 by (unfold orient; ring). lra.
    - pose proof (nearly_fan m a l HN u v He). rewrite Rmax_left in H by lra. exact H. }
  specialize (G HA). set (S1 := sumR _) in *. set (S2 := sumR _) in *.
  apply Rabs_le_iff in G. apply Rabs_le_iff. lra.
Qed.

Section Loop.
  Variables (k : Z) (X0 X1 Y0 Y1 H D : R).
  Hypothesis Hk : (-251 <= k <= 400)%Z.
  Let m := uro * bpow radix2 k.
  Let eps := 6 * m.
  (** within h of the box *)
  Definition inb (h : R) (p : pt) : Prop := X0 - h <= px p <= X1 + h /\ Y0 - h <= py p <= Y1 + h.
  Hypothesis HX : - bpow radix2 k <= X0 - H /\ X1 + H <= bpow radix2 k.
  Hypothesis HY : - bpow radix2 k <= Y0 - H /\ Y1 + H <= bpow radix2 k.
  Hypothesis HD : X1 - X0 + 2 * H <= D /\ Y1 - Y0 + 2 * H <= D.
  Hypothesis HDk : bpow radix2 (-400) <= D <= bpow radix2 (k + 1).
  Hypothesis H0 : 0 <= H.

  Definition finb (h : R) (p : point b64) : Prop := is_finite (px p) = true /\ is_finite (py p) = true /\ inb h (rp p).

  Lemma finb_bpt h p : h <= H -> finb h p -> bpt k p.
  Proof.
    intros Hh (F1 & F2 & (B1 & B2)). unfold rp in B1, B2. cbn [px py] in B1, B2.
    split; split; auto; apply Rabs_le_iff; lra.
  Qed.
  Lemma bpt_up p : bpt k p -> bpt (k + 1) p.
  Proof. intros ((F1 & B1) & (F2 & B2)). assert (bpow radix2 k <= bpow radix2 (k + 1)) by (apply bpow_le; lia). split; split; auto; lra. Qed.

  Lemma inb_win2 h r p : 0 <= h -> inb 0 r -> inb h p -> win r (D - 2 * H + h) p.
  Proof. intros Hh (R1 & R2) (P1 & P2). split; apply Rabs_le_iff; lra. Qed.

  Lemma inb_close h u v x : 0 <= h -> inb h u -> inb h v -> closep eps u v x -> inb (h + eps) x.
  Proof.
    intros Hh (U1 & U2) (V1 & V2) (x' & (t & Ht & ->) & E1 & E2). unfold at_ in E1, E2. cbn [px py] in E1, E2.
    apply Rabs_le_iff in E1, E2.
    assert (G : forall a b lo hi, lo <= a <= hi -> lo <= b <= hi -> lo <= a + t * (b - a) <= hi).
    { intros a b lo hi Ha Hb. replace (a + t * (b - a)) with ((1 - t) * a + t * b) by ring.
      pose proof (Rmult_le_compat_l (1 - t) lo a ltac:(lra) ltac:(lra)). pose proof (Rmult_le_compat_l (1 - t) a hi ltac:(lra) ltac:(lra)).
      pose proof (Rmult_le_compat_l t lo b ltac:(lra) ltac:(lra)). pose proof (Rmult_le_compat_l t b hi ltac:(lra) ltac:(lra)). lra. }
    pose proof (G (px u) (px v) _ _ U1 V1). pose proof (G (py u) (py v) _ _ U2 V2). split; lra.
  Qed.

  Lemma mpos : 0 < m. Proof. apply (mp k). Qed.
  Lemma Dpos : 0 < D. Proof. pose proof (bpow_gt_0 radix2 (-400)). lra. Qed.

  Lemma side_slen (r s : point b64) : axis_side (rp r) (rp s) -> 0 < slen r s
    /\ (slen r s <= Rabs (px (rp s) - px (rp r)) \/ slen r s <= Rabs (py (rp s) - py (rp r))).
  Proof.
    pose proof (bpow_gt_0 radix2 (-250)). unfold slen, rp, axis_side. cbn [px py]. intros [(E & L & _)|(E & L & _)]; rewrite E.
    - replace (B2R (py r) - B2R (py r)) with 0 by ring. rewrite Rabs_R0. rewrite Rmax_left by apply Rabs_pos. split; [lra|left; lra].
    - replace (B2R (px r) - B2R (px r)) with 0 by ring. rewrite Rabs_R0. rewrite Rmax_right by apply Rabs_pos. split; [lra|right; lra].
  Qed.

  Definition cost (n : nat) (eta0 : R) : R :=
    INR n * (64 * (66 * (D * m))) + 64 * (eta0 + INR n * (72 * (D * m))) + 5000 * (uro * (D * D)).

  Lemma clip_loop_float : forall l r P subject out h eta0 A,
    (forall u v, In (u, v) (chain (rp r) (map rp l)) -> axis_side u v) ->
    Forall (finb 0) (r :: l) -> Forall (finb h) P -> 0 <= h -> h + INR (length l) * eps <= H ->
    (3 <= length P <= 64)%nat -> firstn (length P) out = P -> length out = 64%nat -> length subject = 64%nat ->
    (clip_bound (length l) (zlen P) <= 64)%Z -> 0 <= eta0 -> nearly eta0 (map rp P) ->
    clip_loop r l subject out (zlen P) = Ok A ->
    is_finite A = true /\ Rabs (B2R A - area_in (chain (rp r) (map rp l)) (map rp P)) <= cost (length l) eta0.
  Proof.
    pose proof mpos as Pm. pose proof Dpos as PD. pose proof uro_pos as Pu.
    assert (PDm : 0 < D * m) by (now apply Rmult_lt_0_compat).
    assert (PDD : 0 <= uro * (D * D)) by (apply Rmult_le_pos; [lra|apply Rmult_le_pos; lra]).
    induction l as [|s l IH]; intros r P subject out h eta0 A HS HR HP Hh HH HL HF LO LS HCB He HN HA.
    - cbn [length] in HH. rewrite Rmult_0_l in HH. cbn [clip_loop] in HA. unfold zlen in HA. rewrite Nat2Z.id, HF in HA.
      destruct (polygon_area_ok k D Hk HDk P) as (A' & EA & FA & a & Ha & Hd & HB).
      + lia.
      + eapply Forall_impl; [|exact HP]. intros p Hp. apply bpt_up, (finb_bpt h); auto. lra.
      + intros p p' Hp Hp'. rewrite Forall_forall in HP. destruct (HP p Hp) as (_ & _ & P1 & P2). destruct (HP p' Hp') as (_ & _ & P3 & P4).
        unfold rp in P1, P2, P3, P4. cbn [px py] in *. split; apply Rabs_le_iff; lra.
      + rewrite EA in HA. injection HA as <-. split; auto. cbn [map chain]. rewrite area_in_shoelace.
        pose proof (nearly_area eta0 _ a He HN Hd) as HS'. rewrite map_length in HS'.
        assert (INR (length P) * eta0 <= 64 * eta0). { apply Rmult_le_compat_r; auto. replace 64 with (INR 64) by (cbn; lra). apply le_INR. lia. }
        unfold cost. cbn [length INR]. apply Rabs_le_iff in HB, HS'. apply Rabs_le_iff. lra.
    - cbn [length] in HH. rewrite S_INR in HH.
      assert (Pn : 0 <= INR (length l)) by apply pos_INR.
      assert (Pe : 0 < eps) by (unfold eps; lra).
      assert (Hhe : h + eps <= H). { assert (0 <= INR (length l) * eps) by (apply Rmult_le_pos; lra). lra. }
      apply Forall_cons_iff in HR as (Fr & HR). apply Forall_cons_iff in HR as (Fs & HR).
      pose proof (finb_bpt 0 r ltac:(lra) Fr) as Br. pose proof (finb_bpt 0 s ltac:(lra) Fs) as Bs.
      assert (Ax : axis_side (rp r) (rp s)) by (apply HS; now left).
      destruct (side_slen r s Ax) as (SL & Hside).
      cbn [clip_loop] in HA.
      assert (EU : neqb (nsub (px s) (px r)) (nofZ 0) && neqb (nsub (py s) (py r)) (nofZ 0) = false).
      { rewrite (zero_diff k Hk _ _ (proj1 Bs) (proj1 Br)), (zero_diff k Hk _ _ (proj2 Bs) (proj2 Br)).
        apply andb_false_iff. unfold slen in SL.
        destruct (Req_bool_spec (B2R (px s)) (B2R (px r))) as [E1|E1]; [|now left].
        destruct (Req_bool_spec (B2R (py s)) (B2R (py r))) as [E2|E2]; [|now right]. exfalso.
        rewrite E1, E2 in SL. replace (B2R (px r) - B2R (px r)) with 0 in SL by ring. replace (B2R (py r) - B2R (py r)) with 0 in SL by ring.
        rewrite Rabs_R0, Rmax_left in SL by lra. lra. }
      cbn [px py] in HA. rewrite EU in HA. clear EU.
      set (U := Pt (nsub (px s) (px r)) (nsub (py s) (py r))) in *.
      cbn [length clip_bound] in HCB.
      assert (HCB' : ((3 * zlen P + 1) / 2 <= 64)%Z).
      { pose proof (clip_bound_grows (length l) ((3 * zlen P + 1) / 2)) as G.
        assert (0 <= (3 * zlen P + 1) / 2)%Z by (apply Z.div_pos; unfold zlen; lia). lia. }
      destruct (clip_by_edge_any r U subject out (zlen P)) as (sub' & out' & n' & EC & L1 & L2 & Hn'); [unfold zlen; lia|unfold zlen in *; lia|lia|].
      rewrite EC in HA. cbn [bind] in HA.
      assert (Pne : P <> []) by (intros ->; cbn in HL; lia).
      destruct (clip_by_edge_rel r U subject out P (Pt (nofZ 0) (nofZ 0)) sub' out' n' Pne HF ltac:(lia) EC) as (Q & st & EO & En & EQ).
      set (a := last P (Pt (nofZ 0) (nofZ 0))) in *.
      assert (Ina : In a P) by (unfold a; destruct (exists_last Pne) as (l' & x & ->); rewrite last_last; apply in_or_app; right; now left).
      assert (Ba : bpt k a) by (rewrite Forall_forall in HP; apply (finb_bpt h); [lra|auto]).
      assert (BP : Forall (bpt k) P) by (eapply Forall_impl; [|exact HP]; intros p Hp; apply (finb_bpt h); [lra|auto]).
      assert (WP : Forall (fun p => win (rp r) (D - 2 * H + h) (rp p)) P).
      { eapply Forall_impl; [|exact HP]. intros p (_ & _ & Hp). apply inb_win2; auto. apply Fr. }
      pose proof (inside_exact k Hk r s Br Bs Ax a Ba) as Ei. fold U in Ei. rewrite Ei in EO. clear Ei.
      destruct (edges_run k Hk r s Br Bs Ax D (D - 2 * H + h) ltac:(fold m; fold eps; lra) P a Q st Ba BP) as (R1 & R2 & R3 & R4); auto.
      { rewrite Forall_forall in WP. now apply WP. }
      fold m in R2, R3, R4.
      assert (EaR : last (map rp P) (Pt 0 0) = rp a).
      { unfold a. destruct (exists_last Pne) as (l' & x & ->). rewrite map_app. cbn [map]. now rewrite !last_last. }
      assert (mne : map rp P <> []) by (destruct P; [congruence|discriminate]).
      assert (WR : Forall (win (rp r) D) (map rp P)).
      { apply Forall_map. eapply Forall_impl; [|exact WP]. intros p (W1 & W2). split; lra. }
      pose proof (step_close (rp r) (rp s) (chain (rp s) (map rp l)) (slen r s * (18 * m)) D (slen r s) (2 * (D * (6 * m)))
        ltac:(apply Rmult_le_pos; lra) SL ltac:(lra) Hside (map rp P) (map rp Q) (ins (rp r) (rp s) (rp a)) (snd st) mne) as SC.
      rewrite EaR in SC. specialize (SC R2).
      match type of SC with ?A -> _ => assert (HA1 : A) end.
      { unfold flag_ok. destruct (ins (rp r) (rp s) (rp a)) eqn:Ei; unfold ins in Ei.
        - apply Rltb_true in Ei || idtac. assert (0 <= slen r s * (18 * m)) by (apply Rmult_le_pos; lra). rb. lra.
        - assert (0 <= slen r s * (18 * m)) by (apply Rmult_le_pos; lra). rb. lra. }
      specialize (SC HA1). clear HA1.
      match type of SC with ?A -> _ => assert (HA1 : A) end.
      { intros Hi. rewrite R1. rewrite (last_default _ (rp a) (Pt 0 0)) by auto. now rewrite EaR. }
      specialize (SC HA1). clear HA1.
      assert (Wr : win (rp r) D (rp r)) by (split; replace (px (rp r) - px (rp r)) with 0 by ring; replace (py (rp r) - py (rp r)) with 0 by ring; rewrite Rabs_R0; lra).
      specialize (SC Wr WR). rewrite map_length in SC.
      replace (D * (slen r s * (18 * m)) / slen r s) with (18 * (D * m)) in SC by (field; lra).
      assert (SC2 : Rabs (area_in (chain (rp s) (map rp l)) (map rp Q) - area_in ((rp r, rp s) :: chain (rp s) (map rp l)) (map rp P)) <= 64 * (66 * (D * m))).
      { eapply Rle_trans; [exact SC|]. replace (3 * (18 * (D * m)) + 2 * (D * (6 * m))) with (66 * (D * m)) by ring.
        apply Rmult_le_compat_r; [lra|]. replace 64 with (INR 64) by (cbn; lra). apply le_INR. lia. }
      clear SC. cbn [map chain].
      destruct (n' <? 3)%Z eqn:E3.
      + injection HA as <-. destruct (Zb_exact 0 ltac:(cbv; discriminate)) as (F0 & E0). change (nofZ 0 : b64) with (Zb 0).
        split; auto. replace (B2R (Zb 0)) with 0 by (symmetry; exact E0). rewrite area_in_short in SC2 by (rewrite map_length; apply Z.ltb_lt in E3; unfold zlen in En; lia).
        eapply Rle_trans; [exact SC2|]. unfold cost. cbn [length]. rewrite S_INR.
        assert (0 <= INR (length l) * (64 * (66 * (D * m)))) by (apply Rmult_le_pos; lra).
        assert (0 <= INR (length l) * (72 * (D * m))) by (apply Rmult_le_pos; lra). lra.
      + apply Z.ltb_ge in E3. subst n'.
        destruct (IH s Q sub' out' (h + eps) (eta0 + 72 * (D * m)) A) as (FA & HB); auto.
        * intros u v Huv. apply HS. now right.
        * eapply Forall_impl; [|exact R4]. intros x (F1 & F2 & u & v & Hu & Hv & Hc). split; auto. split; auto.
          assert (Hin : forall w, In w (map rp (a :: P)) -> inb h w).
          { intros w Hw. rewrite Forall_forall in HP. apply in_map_iff in Hw as (p & <- & [<-|Hp]); apply HP; auto. }
          apply (inb_close h u v); auto.
        * lra.
        * cbn [length]. lra.
        * unfold zlen in *. lia.
        * lia.
        * lia.
        * eapply Z.le_trans; [apply clip_bound_mono|exact HCB]. lia.
        * lra.
        * replace (eta0 + 72 * (D * m)) with (eta0 + 3 * (4 * (D * (6 * m)))) by ring.
          apply (follows_3 (rp r) D (4 * (D * (6 * m))) ltac:(lra) eta0 (rp a) (map rp P) (map rp Q)); auto.
          -- rewrite Forall_forall in WR. apply WR. now apply in_map.
          -- rewrite <- EaR. now apply nearly_last.
        * split; auto. eapply Rle_trans; [|apply Req_le; instantiate (1 := 64 * (66 * (D * m)) + cost (length l) (eta0 + 72 * (D * m)))].
          -- apply Rabs_le_iff in SC2, HB. apply Rabs_le_iff. lra.
          -- unfold cost. cbn [length]. rewrite S_INR. ring.
  Qed.
End Loop.
