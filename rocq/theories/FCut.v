(** Clipping a side by an axis-parallel line, in binary64. *)
From Coq Require Import Reals Lra Psatz.
From Flocq Require Import IEEE754.BinarySingleNaN Core.
From Verif Require Import RBase NumB64 NumRoom FBase FBuild MGeometry MAlgorithms FPoint.
Open Scope R_scope.

(** ** Nothing is lost to underflow *)
Lemma rnd_float (x : b64) : rnd (B2R x) = B2R x.
Proof. apply round_generic; [exact _|apply generic_format_B2R]. Qed.

Definition tiny : b64 := B754_finite (prec:=prec) (emax:=emax) false 1 (-1074) eq_refl.
Lemma tiny_val : B2R tiny = bpow radix2 (-1074).
Proof. unfold tiny, B2R, F2R. cbn [cond_Zopp Fnum Fexp]. ring. Qed.

Lemma rnd_opp z : rnd (- z) = - rnd z.
Proof. exact (round_NE_opp radix2 (SpecFloat.fexp prec emax) z). Qed.

Lemma rnd_pos_tiny z : bpow radix2 (-1074) <= z -> bpow radix2 (-1074) <= rnd z.
Proof. rewrite <- tiny_val. apply rnd_ge. Qed.
Lemma rnd_abs_tiny z : bpow radix2 (-1074) <= Rabs z -> bpow radix2 (-1074) <= Rabs (rnd z).
Proof.
  intros H. pose proof (bpow_gt_0 radix2 (-1074)). destruct (Rle_or_lt 0 z) as [P|P].
  - rewrite Rabs_pos_eq in H by lra. pose proof (rnd_pos_tiny z H). rewrite Rabs_pos_eq; lra.
  - rewrite Rabs_left in H by lra. pose proof (rnd_pos_tiny (- z) H) as G. rewrite rnd_opp in G.
    rewrite Rabs_left; lra.
Qed.

(** a float of magnitude at least 2^j is a multiple of 2^(j-52) *)
Lemma float_multiple (x : b64) j : (-1022 <= j)%Z -> bpow radix2 j <= Rabs (B2R x) -> exists n, B2R x = IZR n * bpow radix2 (j - 52).
Proof.
  intros Hj Hx. pose proof (generic_format_B2R prec emax x) as G. unfold generic_format in G. unfold F2R in G. cbn [Fnum Fexp] in G.
  set (m := Ztrunc _) in G. set (c := cexp radix2 (SpecFloat.fexp prec emax) (B2R x)) in G.
  assert (Hc : (j - 52 <= c)%Z).
  { unfold c, cexp, SpecFloat.fexp, SpecFloat.emin. 
    assert (j < mag radix2 (B2R x))%Z by (apply mag_gt_bpow; exact Hx). unfold prec, emax in *. lia. }
  exists (m * 2 ^ (c - (j - 52)))%Z. rewrite G. rewrite mult_IZR, (IZR_Zpower radix2) by lia.
  rewrite Rmult_assoc, <- bpow_plus. do 2 f_equal. lia.
Qed.

Lemma mult_gap n n' j : IZR n * bpow radix2 j <> IZR n' * bpow radix2 j -> bpow radix2 j <= Rabs (IZR n * bpow radix2 j - IZR n' * bpow radix2 j).
Proof.
  intros H. rewrite <- Rmult_minus_distr_r, <- minus_IZR, Rabs_mult, (Rabs_pos_eq (bpow radix2 j)) by apply bpow_ge_0.
  rewrite <- (Rmult_1_l (bpow radix2 j)) at 1. apply Rmult_le_compat_r; [apply bpow_ge_0|].
  rewrite <- abs_IZR. apply IZR_le. assert (n <> n') by (intros ->; now apply H). lia.
Qed.

Lemma float_gap (x y : b64) j : (-1021 <= j)%Z -> bpow radix2 j <= Rabs (B2R y) -> B2R x <> B2R y ->
  bpow radix2 (j - 53) <= Rabs (B2R x - B2R y).
Proof.
  intros Hj Hy Hn. destruct (Rle_or_lt (bpow radix2 (j - 1)) (Rabs (B2R x))) as [H|H].
  - destruct (float_multiple x (j - 1)) as (n & En); [lia|auto|].
    destruct (float_multiple y (j - 1)) as (n' & En'); [lia|apply Rle_trans with (bpow radix2 j); [apply bpow_le; lia|exact Hy]|].
    rewrite En, En' in *. replace (j - 53)%Z with (j - 1 - 52)%Z by lia. now apply mult_gap.
  - apply Rle_trans with (bpow radix2 (j - 1)); [apply bpow_le; lia|].
    rewrite Rabs_minus_sym. eapply Rle_trans; [|apply Rabs_triang_inv].
    assert (E : bpow radix2 j = 2 * bpow radix2 (j - 1)).
    { replace j with (1 + (j - 1))%Z at 1 by lia. rewrite bpow_plus. reflexivity. }
    lra.
Qed.

Lemma float_nonzero (x y : b64) : is_finite x = true -> is_finite y = true -> B2R x <> B2R y -> bpow radix2 (-1074) <= Rabs (B2R x - B2R y).
Proof.
  intros Fx Fy Hn.
  assert (G : forall z : b64, exists n, B2R z = IZR n * bpow radix2 (-1074)).
  { intros z. pose proof (generic_format_B2R prec emax z) as G. unfold generic_format, F2R in G. cbn [Fnum Fexp] in G.
    set (m := Ztrunc _) in G. set (c := cexp radix2 (SpecFloat.fexp prec emax) (B2R z)) in G.
    assert (Hc : (-1074 <= c)%Z) by (unfold c, cexp, SpecFloat.fexp, SpecFloat.emin, prec, emax; lia).
    exists (m * 2 ^ (c + 1074))%Z. rewrite G, mult_IZR, (IZR_Zpower radix2) by lia.
    rewrite Rmult_assoc, <- bpow_plus. do 2 f_equal. lia. }
  destruct (G x) as (n & En). destruct (G y) as (n' & En'). rewrite En, En' in *. now apply mult_gap.
Qed.

Lemma mul_between U w v : 0 <= w <= v \/ v <= w <= 0 -> 0 <= U * w <= U * v \/ U * v <= U * w <= 0.
Proof.
  assert (G : forall U w v, 0 <= U -> 0 <= w <= v -> 0 <= U * w <= U * v).
  { clear. intros U w v HU (H1 & H2). split; [now apply Rmult_le_pos|now apply Rmult_le_compat_l]. }
  intros [H|H]; destruct (Rle_or_lt 0 U) as [P|P].
  - left. now apply G.
  - right. pose proof (G (- U) w v ltac:(lra) H). lra.
  - right. pose proof (G U (- w) (- v) P ltac:(lra)). lra.
  - left. pose proof (G (- U) (- w) (- v) ltac:(lra) ltac:(lra)). lra.
Qed.
Lemma mul_abs x y a b : Rabs x <= a -> Rabs y <= b -> Rabs (x * y) <= a * b.
Proof. intros. rewrite Rabs_mult. apply Rmult_le_compat; auto using Rabs_pos. Qed.
Lemma add_abs x y a b : Rabs x <= a -> Rabs y <= b -> Rabs (x + y) <= a + b.
Proof. intros. eapply Rle_trans; [apply Rabs_triang|lra]. Qed.

Section Cut.
  Local Notation bounded := NumRoom.bounded.
  Variable k : Z.
  Hypothesis Hk : (-251 <= k <= 400)%Z.
  Let M := bpow radix2 k.
  Let m := uro * M.

  Lemma Mp : 0 < M. Proof. apply bpow_gt_0. Qed.
  Lemma mp : 0 < m. Proof. apply Rmult_lt_0_compat; [apply uro_pos|apply Mp]. Qed.
  Lemma m_eq2 : m = bpow radix2 (k - 53).
  Proof. unfold m, M, uro. rewrite <- bpow_plus. f_equal. lia. Qed.
  Lemma mM2 : m <= M / 1000000.
  Proof. unfold m. pose proof uro_small. pose proof Mp. apply (Rmult_le_compat_r M) in H; lra. Qed.
  Lemma eta_mm : eta * bpow radix2 252 <= m / 1000.
  Proof.
    unfold eta. rewrite <- bpow_plus, m_eq2.
    apply Rle_trans with (bpow radix2 (k - 63)); [apply bpow_le; lia|].
    replace (k - 53)%Z with (10 + (k - 63))%Z by lia. rewrite (bpow_plus radix2 10).
    pose proof (bpow_gt_0 radix2 (k - 63)). change (bpow radix2 10) with 1024. lra.
  Qed.
  Lemma eta_M1 : eta <= m / 1000.
  Proof.
    eapply Rle_trans; [|exact eta_mm]. pose proof eta_pos. rewrite <- (Rmult_1_r eta) at 1.
    apply Rmult_le_compat_l; [lra|]. change 1 with (bpow radix2 0). apply bpow_le. lia.
  Qed.
  Lemma eta_M2 : eta * M <= m / 1000.
  Proof.
    unfold eta, M. rewrite <- bpow_plus, m_eq2. apply Rle_trans with (bpow radix2 (k - 63)); [apply bpow_le; lia|].
    replace (k - 53)%Z with (10 + (k - 63))%Z by lia. rewrite (bpow_plus radix2 10).
    pose proof (bpow_gt_0 radix2 (k - 63)). change (bpow radix2 10) with 1024. lra.
  Qed.

  Lemma diff_bd (x y : b64) : bounded k x -> bounded k y -> Rabs (B2R x - B2R y) <= 2 * M.
  Proof. intros (_ & Hx) (_ & Hy). fold M in Hx, Hy. apply Rabs_le_iff in Hx, Hy. apply Rabs_le_iff. lra. Qed.
  Lemma twoM2 : 2 * M = bpow radix2 (k + 1).
  Proof. rewrite bpow_plus. change (bpow radix2 1) with 2. unfold M. ring. Qed.
  Lemma diff_val (x y : b64) : bounded k x -> bounded k y ->
    bounded (k + 1) (nsub x y) /\ B2R (nsub x y) = rnd (B2R x - B2R y)
    /\ Rabs (B2R (nsub x y) - (B2R x - B2R y)) <= 2 * m.
  Proof.
    intros Hx Hy. pose proof (diff_bd x y Hx Hy) as HD.
    destruct (minus_val (k + 1) x y) as (E & B); [lia|apply Hx|apply Hy|now rewrite <- twoM2|].
    split; auto. split; auto. rewrite E. destruct (rnd_minus x y) as (e & He & ->).
    replace ((B2R x - B2R y) * (1 + e) - (B2R x - B2R y)) with ((B2R x - B2R y) * e) by ring.
    rewrite Rabs_mult. apply Rle_trans with (2 * M * uro); [apply Rmult_le_compat; auto using Rabs_pos|unfold m; lra].
  Qed.

  (** a point on the segment, from a parameter between 0 and 1 *)
  Lemma coord_cut (a b t : b64) : bounded k a -> bounded k b -> is_finite t = true -> 0 <= B2R t <= 1 ->
    is_finite (nadd a (nmul t (nsub b a))) = true
    /\ Rabs (B2R (nadd a (nmul t (nsub b a))) - (B2R a + B2R t * (B2R b - B2R a))) <= 6 * m.
  Proof.
    intros Ha Hb Ft Ht. pose proof Mp as PM. pose proof mp as Pm. pose proof mM2 as HmM. pose proof eta_M1 as He.
    destruct (diff_val b a Hb Ha) as (BV & _ & EV). set (V := nsub b a) in *.
    pose proof (diff_bd b a Hb Ha) as HD.
    assert (HV : Rabs (B2R V) <= 2 * M + 2 * m).
    { replace (B2R V) with ((B2R V - (B2R b - B2R a)) + (B2R b - B2R a)) by ring. eapply Rle_trans; [apply Rabs_triang|]. lra. }
    assert (HtV : Rabs (B2R t * B2R V) <= Rabs (B2R V)).
    { rewrite Rabs_mult. rewrite <- (Rmult_1_l (Rabs (B2R V))) at 2. apply Rmult_le_compat_r; [apply Rabs_pos|]. rewrite Rabs_pos_eq; lra. }
    destruct (mult_val (k + 1) t V) as (E1 & B1); [lia|auto|apply BV|eapply Rle_trans; [exact HtV|apply BV]|].
    assert (N1 : Rabs (B2R (nmul t V) - B2R t * B2R V) <= 2 * m + m / 100).
    { rewrite E1. eapply Rle_trans; [apply (rnd_abs _ (2 * M + 2 * m)); lra|].
      replace (uro * (2 * M + 2 * m)) with (2 * m + 2 * (uro * m)) by (unfold m; ring).
      pose proof uro_small. assert (uro * m <= / 1000000 * m) by (apply Rmult_le_compat_r; lra). lra. }
    set (y := nmul t V) in *.
    assert (N2 : Rabs (B2R t * B2R V - B2R t * (B2R b - B2R a)) <= 2 * m).
    { rewrite <- Rmult_minus_distr_l, Rabs_mult, (Rabs_pos_eq (B2R t)) by lra.
      apply Rle_trans with (1 * (2 * m)); [|lra]. apply Rmult_le_compat; auto using Rabs_pos; lra. }
    set (z := B2R a + B2R t * (B2R b - B2R a)) in *.
    assert (Hz : Rabs z <= M).
    { destruct Ha as (_ & Ha). destruct Hb as (_ & Hb). fold M in Ha, Hb. apply Rabs_le_iff in Ha, Hb. apply Rabs_le_iff. unfold z.
      pose proof (Rmult_le_pos (B2R t) (M - B2R b) ltac:(lra) ltac:(lra)). pose proof (Rmult_le_pos (B2R t) (M + B2R b) ltac:(lra) ltac:(lra)).
      pose proof (Rmult_le_pos (1 - B2R t) (M - B2R a) ltac:(lra) ltac:(lra)). pose proof (Rmult_le_pos (1 - B2R t) (M + B2R a) ltac:(lra) ltac:(lra)).
      split; lra. }
    assert (Hs : Rabs (B2R a + B2R y - z) <= 4 * m + m / 100).
    { replace (B2R a + B2R y - z) with ((B2R y - B2R t * B2R V) + (B2R t * B2R V - B2R t * (B2R b - B2R a))) by (unfold z; ring).
      eapply Rle_trans; [apply Rabs_triang|]. lra. }
    assert (Hs2 : Rabs (B2R a + B2R y) <= M + 5 * m).
    { replace (B2R a + B2R y) with ((B2R a + B2R y - z) + z) by ring. eapply Rle_trans; [apply Rabs_triang|]. lra. }
    destruct (plus_val (k + 1) a y) as (E2 & B2); [lia|apply Ha|apply B1| |].
    { rewrite <- twoM2. lra. }
    split; [apply B2|]. rewrite E2.
    replace (rnd (B2R a + B2R y) - z) with ((rnd (B2R a + B2R y) - (B2R a + B2R y)) + (B2R a + B2R y - z)) by ring.
    eapply Rle_trans; [apply Rabs_triang|].
    pose proof (rnd_abs _ _ Hs2) as N3. 
    replace (uro * (M + 5 * m)) with (m + 5 * (uro * m)) in N3 by (unfold m; ring).
    pose proof uro_small. assert (uro * m <= / 1000000 * m) by (apply Rmult_le_compat_r; lra). lra.
  Qed.

  (** the parameter of the cut *)
  Lemma param_cut (u c a b nw nv : b64) sg : (sg = 1 \/ sg = -1) ->
    bounded (k + 1) u -> bpow radix2 (-251) <= Rabs (B2R u) -> bounded k c -> bounded k a -> bounded k b ->
    (B2R a <= B2R c <= B2R b \/ B2R b <= B2R c <= B2R a) ->
    is_finite nw = true -> is_finite nv = true -> B2R nv <> 0 ->
    B2R nw = sg * rnd (B2R u * rnd (B2R c - B2R a)) -> B2R nv = sg * rnd (B2R u * rnd (B2R b - B2R a)) ->
    ndiv nw nv = Ok (ndivraw nw nv) /\ is_finite (ndivraw nw nv) = true /\ 0 <= B2R (ndivraw nw nv) <= 1
    /\ Rabs (B2R a + B2R (ndivraw nw nv) * (B2R b - B2R a) - B2R c) <= 12 * m.
  Proof.
    intros Hsg Bu Lu Bc Ba Bb Hord Fw Fv Nv Ew Ev.
    pose proof Mp as PM. pose proof mp as Pm. pose proof mM2 as HmM. pose proof eta_M1 as He. pose proof eta_mm as He2. pose proof eta_M2 as He3.
    pose proof uro_pos as Pu. pose proof uro_small as Su. pose proof eta_pos as Pe.
    destruct (diff_val c a Bc Ba) as (_ & E1 & N1). destruct (diff_val b a Bb Ba) as (_ & E2 & N2).
    rewrite E1 in N1. rewrite E2 in N2.
    set (w := B2R c - B2R a) in *. set (v := B2R b - B2R a) in *. set (w' := rnd w) in *. set (v' := rnd v) in *.
    assert (Hwv : 0 <= w' <= v' \/ v' <= w' <= 0).
    { destruct Hord as [(O1 & O2)|(O1 & O2)]; [left|right]; split.
      - rewrite <- rnd_0. apply rnd_mono. unfold w. lra.
      - apply rnd_mono. unfold w, v. lra.
      - apply rnd_mono. unfold w, v. lra.
      - rewrite <- rnd_0. apply rnd_mono. unfold w. lra. }
    assert (Huwv : 0 <= rnd (B2R u * w') <= rnd (B2R u * v') \/ rnd (B2R u * v') <= rnd (B2R u * w') <= 0).
    { pose proof (mul_between (B2R u) w' v' Hwv) as G.
      destruct G as [(G1 & G2)|(G1 & G2)]; [left|right]; split; try (apply rnd_mono; auto); rewrite <- rnd_0; now apply rnd_mono. }
    set (x1 := rnd (B2R u * w')) in *. set (x2 := rnd (B2R u * v')) in *.
    assert (Nx2 : x2 <> 0) by (intros E; apply Nv; rewrite Ev, E; ring).
    assert (Eq : B2R nw / B2R nv = x1 / x2).
    { rewrite Ew, Ev. destruct Hsg as [->| ->]; field; auto. }
    assert (H01 : 0 <= x1 / x2 <= 1).
    { destruct Huwv as [(G1 & G2)|(G1 & G2)].
      - split; [apply Rmult_le_pos; [lra|]; left; apply Rinv_0_lt_compat; lra|].
        apply (Rmult_le_reg_r x2); [lra|]. unfold Rdiv. rewrite Rmult_assoc, Rinv_l by auto. lra.
      - replace (x1 / x2) with ((- x1) / (- x2)) by (field; auto).
        split; [apply Rmult_le_pos; [lra|]; left; apply Rinv_0_lt_compat; lra|].
        apply (Rmult_le_reg_r (- x2)); [lra|]. unfold Rdiv. rewrite Rmult_assoc, Rinv_l by lra. lra. }
    destruct (div_val 0 nw nv) as (Ed & Et & Bt); [lia|auto|auto|auto|rewrite Eq, Rabs_pos_eq by lra; change (bpow radix2 0) with 1; lra|].
    split; auto. split; [apply Bt|]. rewrite Eq in Et. set (t := B2R (ndivraw nw nv)) in *.
    assert (Ht : 0 <= t <= 1).
    { destruct (Zb_exact 1 ltac:(cbv; discriminate)) as (_ & E1b). split; rewrite Et.
      - rewrite <- rnd_0. apply rnd_mono. lra.
      - rewrite <- E1b. apply rnd_le. rewrite E1b. lra. }
    split; auto.
    (* t v' against w' *)
    destruct (rnd_any (B2R u * w')) as (e1 & h1 & He1 & Hh1 & Ex1). fold x1 in Ex1.
    destruct (rnd_any (B2R u * v')) as (e2 & h2 & He2' & Hh2 & Ex2). fold x2 in Ex2.
    destruct (rnd_any (x1 / x2)) as (e3 & h3 & He3' & Hh3 & Ex3). rewrite <- Et in Ex3.
    assert (Key : t * x2 = x1 * (1 + e3) + h3 * x2) by (rewrite Ex3; field; auto).
    assert (Wb : Rabs w <= 2 * M) by (apply diff_bd; auto). assert (Vb : Rabs v <= 2 * M) by (apply diff_bd; auto).
    assert (Hw' : Rabs w' <= 2 * M + 2 * m).
    { replace w' with ((w' - w) + w) by ring. eapply Rle_trans; [apply Rabs_triang|]. lra. }
    assert (Hv' : Rabs v' <= 2 * M + 2 * m).
    { replace v' with ((v' - v) + v) by ring. eapply Rle_trans; [apply Rabs_triang|]. lra. }
    assert (Pu2 : 0 < Rabs (B2R u)) by (pose proof (bpow_gt_0 radix2 (-251)); lra).
    set (U := B2R u) in *.
    assert (Id : U * (t * v' - w') = U * (- (t * v' * e2) + w' * (e1 + e3 + e1 * e3) + h3 * v' * (1 + e2)) + (h1 * (1 + e3) - t * h2 + h3 * h2)).
    { rewrite Ex1, Ex2 in Key. 
      replace (U * (t * v' - w')) with (t * (U * v' * (1 + e2) + h2) - t * (U * v' * e2) - t * h2 - U * w') by ring.
      rewrite Key. ring. }
    assert (S1 : Rabs (t * v' * e2) <= (2 * M + 2 * m) * uro).
    { rewrite !Rabs_mult. apply Rmult_le_compat; auto using Rabs_pos; [apply Rmult_le_pos; apply Rabs_pos|].
      rewrite (Rabs_pos_eq t) by lra. rewrite <- (Rmult_1_l (2 * M + 2 * m)). apply Rmult_le_compat; auto using Rabs_pos; lra. }
    assert (S2 : Rabs (w' * (e1 + e3 + e1 * e3)) <= (2 * M + 2 * m) * (2.001 * uro)).
    { rewrite Rabs_mult. apply Rmult_le_compat; auto using Rabs_pos.
      pose proof (mul_abs e1 e3 uro uro He1 He3') as G. pose proof (Rmult_le_compat_r uro uro (/ 1000000) ltac:(lra) Su).
      apply Rabs_le_iff in He1, He3', G. apply Rabs_le_iff. lra. }
    assert (S3 : Rabs (h3 * v' * (1 + e2)) <= eta * (2 * M + 2 * m) * 2).
    { rewrite !Rabs_mult. apply Rmult_le_compat; auto using Rabs_pos; [apply Rmult_le_pos; apply Rabs_pos| |].
      - apply Rmult_le_compat; auto using Rabs_pos.
      - apply Rabs_le_iff in He2'. apply Rabs_le_iff. lra. }
    assert (S4 : Rabs (h1 * (1 + e3) - t * h2 + h3 * h2) <= 5 * eta).
    { assert (E1le : eta <= / 1000) by (unfold eta; apply Rle_trans with (bpow radix2 (-10)); [apply bpow_le; lia|simpl; lra]).
      pose proof (mul_abs h1 (1 + e3) eta 2 Hh1 ltac:(apply Rabs_le_iff in He3'; apply Rabs_le_iff; lra)) as G1.
      pose proof (mul_abs t h2 1 eta ltac:(rewrite Rabs_pos_eq; lra) Hh2) as G2. pose proof (mul_abs h3 h2 eta eta Hh3 Hh2) as G3.
      pose proof (Rmult_le_compat_r eta eta (/ 1000) ltac:(lra) E1le).
      apply Rabs_le_iff in G1, G2, G3. apply Rabs_le_iff. lra. }
    assert (Tw : Rabs (t * v' - w') <= 6 * m + m / 10).
    { apply (Rmult_le_reg_l (Rabs U)); auto. rewrite <- Rabs_mult, Id.
      eapply Rle_trans; [apply Rabs_triang|]. rewrite Rabs_mult.
      assert (A1 : Rabs (- (t * v' * e2) + w' * (e1 + e3 + e1 * e3) + h3 * v' * (1 + e2)) <= 6 * m + m / 20).
      { eapply Rle_trans; [apply Rabs_triang|]. eapply Rle_trans; [apply Rplus_le_compat_r, Rabs_triang|]. rewrite Rabs_Ropp.
        replace ((2 * M + 2 * m) * uro) with (2 * m + 2 * (uro * m)) in S1 by (unfold m; ring).
        replace ((2 * M + 2 * m) * (2.001 * uro)) with (2.001 * (2 * m + 2 * (uro * m))) in S2 by (unfold m; ring).
        replace (eta * (2 * M + 2 * m) * 2) with (4 * (eta * M) + 4 * (eta * m)) in S3 by ring.
        assert (uro * m <= / 1000000 * m) by (apply Rmult_le_compat_r; lra).
        assert (eta * m <= eta * M) by (apply Rmult_le_compat_l; lra). lra. }
      assert (A2 : 5 * eta <= Rabs U * (m / 20)).
      { apply Rle_trans with (bpow radix2 (-251) * (m / 20)); [|apply Rmult_le_compat_r; lra].
        assert (E : bpow radix2 252 = 2 * bpow radix2 251) by (change 252%Z with (1 + 251)%Z; rewrite bpow_plus; reflexivity).
        assert (E2' : bpow radix2 (-251) * bpow radix2 251 = 1) by (rewrite <- bpow_plus; reflexivity).
        pose proof (bpow_gt_0 radix2 (-251)). pose proof (bpow_gt_0 radix2 251).
        apply (Rmult_le_reg_r (bpow radix2 251)); auto.
        replace (bpow radix2 (-251) * (m / 20) * bpow radix2 251) with (m / 20 * (bpow radix2 (-251) * bpow radix2 251)) by ring.
        rewrite E2'. rewrite E in He2. lra. }
      assert (A3 : Rabs U * Rabs (- (t * v' * e2) + w' * (e1 + e3 + e1 * e3) + h3 * v' * (1 + e2)) <= Rabs U * (6 * m + m / 20))
        by (apply Rmult_le_compat_l; lra).
      lra. }
    replace (B2R a + t * v - B2R c) with ((t * v' - w') + t * (v - v') + (w' - w)) by (unfold w; ring).
    assert (T2 : Rabs (t * (v - v')) <= 2 * m).
    { rewrite Rabs_mult, (Rabs_pos_eq t), Rabs_minus_sym by lra. apply Rle_trans with (1 * (2 * m)); [|lra].
      apply Rmult_le_compat; auto using Rabs_pos; lra. }
    eapply Rle_trans; [apply Rabs_triang|]. eapply Rle_trans; [apply Rplus_le_compat_r, Rabs_triang|]. lra.
  Qed.
End Cut.
