(** The separating axis test in binary64: how far a computed projection can be
    from the true one, and what the test still decides correctly. *)
From Coq Require Import Reals Lra Psatz.
From Flocq Require Import IEEE754.BinarySingleNaN Core.
From Verif Require Import RBase NumB64 NumRoom FBase FBuild MGeometry MAlgorithms FPoint FLocate FCut
  SpecTree SpecPoly GConvex GHull GHelly GSat.
Open Scope R_scope.

(** the longer of the two extents of a side *)
Definition extent2 (u v : pt) : R := Rmax (Rabs (px v - px u)) (Rabs (py v - py u)).

(** a side is a repeated corner or not extremely short *)
Definition plain_side (u v : pt) : Prop := u = v \/ bpow radix2 (-400) <= extent2 u v.

(** a diamond of radius r around c *)
Definition diamond (r : R) (c p : pt) : Prop := Rabs (px p - px c) + Rabs (py p - py c) <= r.

(** the line through u and v has a and b on different sides, with a gap of at
    least d between them across the line *)
Definition line_gap (d : R) (u v : pt) (a b : list pt) : Prop :=
  (forall w x, In w a -> In x b -> orient u v w + d * extent2 u v <= orient u v x)
  \/ (forall w x, In w a -> In x b -> orient u v x + d * extent2 u v <= orient u v w).

Lemma extent2_sym u v : extent2 u v = extent2 v u.
Proof. unfold extent2. now rewrite (Rabs_minus_sym (px v)), (Rabs_minus_sym (py v)). Qed.

Definition fnorm (p q : point b64) : point b64 := Pt (nsub (py p) (py q)) (nsub (px q) (px p)).

Section Sat.
  Context (k : Z) (Hk : (-250 <= k <= 400)%Z).
  Let M := bpow radix2 k.
  Let m := uro * M.

  Lemma comp_err (a x y : b64) D : bounded k a -> bounded k x -> bounded k y -> Rabs (B2R x - B2R y) <= D ->
    bpow radix2 (-400) <= D ->
    bounded (2 * k + 2) (nmul a (nsub x y)) /\
    Rabs (B2R (nmul a (nsub x y)) - B2R a * (B2R x - B2R y)) <= 2.01 * m * D.
  Proof.
    intros Ba Bx By HD HL.
    assert (HD2 : Rabs (B2R x - B2R y) <= bpow radix2 (k + 1)).
    { rewrite bpow_split. change (bpow radix2 1) with 2. destruct Bx as (_ & Bx), By as (_ & By).
      apply Rabs_le_iff in Bx, By. apply Rabs_le_iff. lra. }
    destruct (minus_val (k + 1) x y) as (E & B); [lia|apply Bx|apply By|exact HD2|].
    destruct (rnd_minus x y) as (e & He & Ee). rewrite Ee in E.
    assert (HP : Rabs (B2R a * B2R (nsub x y)) <= bpow radix2 (2 * k + 2)).
    { apply Rle_trans with (bpow radix2 k * bpow radix2 (k + 1)).
      - apply mul_abs; [apply Ba|apply B].
      - rewrite <- bpow_plus. apply bpow_le. lia. }
    destruct (mult_val (2 * k + 2) a (nsub x y)) as (E2 & B2); [lia|apply Ba|apply B|exact HP|].
    split; auto. destruct (rnd_any (B2R a * B2R (nsub x y))) as (e2 & h & He2 & Hh & Ee2).
    rewrite E2, Ee2, E.
    set (d := B2R x - B2R y) in *. set (al := B2R a) in *.
    replace (al * (d * (1 + e)) * (1 + e2) + h - al * d) with ((al * d) * (e + e2 + e * e2) + h) by ring.
    assert (H1 : Rabs (al * d) <= M * D) by (apply mul_abs; [apply Ba|exact HD]).
    assert (H2 : Rabs (e + e2 + e * e2) <= 2.001 * uro).
    { pose proof uro_small. pose proof uro_pos. assert (H3 : Rabs (e * e2) <= uro * uro) by now apply mul_abs.
      apply Rabs_le_iff in He, He2, H3. apply Rabs_le_iff. nra. }
    assert (H3 : eta <= 0.001 * (m * D)).
    { unfold m, M, eta, uro. apply Rle_trans with (0.001 * (bpow radix2 (-53) * bpow radix2 (-250) * bpow radix2 (-400))).
      - rewrite <- !bpow_plus. replace (-1075)%Z with (-10 + -1065)%Z by lia. rewrite bpow_plus.
        assert (bpow radix2 (-1065) <= bpow radix2 (-53 + -250 + -400)) by (apply bpow_le; lia).
        pose proof (bpow_gt_0 radix2 (-1065)).
        assert (bpow radix2 (-10) <= 0.001) by (change (bpow radix2 (-10)) with (/ 1024); lra).
        pose proof (bpow_gt_0 radix2 (-10)). nra.
      - apply Rmult_le_compat_l; [lra|]. pose proof (bpow_gt_0 radix2 (-53)). pose proof (bpow_gt_0 radix2 (-250)).
        apply Rmult_le_compat; auto using bpow_ge_0.
        + apply Rmult_le_pos; apply bpow_ge_0.
        + apply Rmult_le_compat_l; [lra|]. apply bpow_le. lia. }
    assert (H4 : Rabs (al * d * (e + e2 + e * e2)) <= M * D * (2.001 * uro)) by now apply mul_abs.
    unfold m in *. apply Rabs_le_iff in H4, Hh. apply Rabs_le_iff. lra.
  Qed.

  (** the computed projection *)
  Lemma proj_err p q v : bpt k p -> bpt k q -> bpt k v -> bpow radix2 (-400) <= extent2 (rp p) (rp q) ->
    bounded (2 * k + 4) (dot_product v (fnorm p q))
    /\ Rabs (B2R (dot_product v (fnorm p q)) - proj (lnorm (rp p) (rp q)) (rp v)) <= 6.1 * m * extent2 (rp p) (rp q).
  Proof.
    intros (P1 & P2) (Q1 & Q2) (V1 & V2) HL. set (D := extent2 (rp p) (rp q)) in *.
    unfold dot_product, fnorm. cbn [px py].
    assert (D1 : Rabs (B2R (py p) - B2R (py q)) <= D) by (rewrite Rabs_minus_sym; apply Rmax_r).
    assert (D2 : Rabs (B2R (px q) - B2R (px p)) <= D) by apply Rmax_l.
    destruct (comp_err (px v) (py p) (py q) D V1 P2 Q2 D1 HL) as (B1 & E1).
    destruct (comp_err (py v) (px q) (px p) D V2 Q1 P1 D2 HL) as (B2 & E2).
    set (s := nmul (px v) _) in *. set (t := nmul (py v) _) in *.
    destruct (plus_val (2 * k + 4) s t) as (E & B); [lia|apply B1|apply B2| |].
    { replace (2 * k + 4)%Z with ((2 * k + 2) + 2)%Z by lia. rewrite bpow_split. change (bpow radix2 2) with 4.
      destruct B1 as (_ & B1), B2 as (_ & B2). pose proof (bpow_gt_0 radix2 (2 * k + 2)).
      apply Rabs_le_iff in B1, B2. apply Rabs_le_iff. lra. }
    split; auto. rewrite E. destruct (rnd_plus s t) as (e & He & ->).
    unfold proj, lnorm, rp. cbn [px py].
    set (X := B2R (px v) * (B2R (py p) - B2R (py q))) in *. set (Y := B2R (py v) * (B2R (px q) - B2R (px p))) in *.
    assert (HX : Rabs X <= M * D) by (apply mul_abs; [apply V1|exact D1]).
    assert (HY : Rabs Y <= M * D) by (apply mul_abs; [apply V2|exact D2]).
    assert (PD : 0 < M * D).
    { apply Rmult_lt_0_compat; [apply bpow_gt_0|]. pose proof (bpow_gt_0 radix2 (-400)). lra. }
    unfold m in *. set (W := M * D) in *. replace (2.01 * (uro * M) * D) with (2.01 * uro * W) in * by (unfold W; ring).
    replace (6.1 * (uro * M) * D) with (6.1 * uro * W) by (unfold W; ring).
    pose proof uro_small. pose proof uro_pos.
    assert (Hst : Rabs (B2R s + B2R t) <= 2.02 * W).
    { apply Rabs_le_iff in E1, E2, HX, HY. apply Rabs_le_iff. nra. }
    assert (He2 : Rabs ((B2R s + B2R t) * e) <= 2.02 * W * uro) by now apply mul_abs.
    apply Rabs_le_iff in E1, E2, He2. apply Rabs_le_iff. nra.
  Qed.

  (** extrema over finitely many finite values are exact *)
  Lemma extrema_B (n : point b64) : forall poly lo hi, is_finite lo = true -> is_finite hi = true ->
    (forall v, In v poly -> is_finite (dot_product v n) = true) ->
    let r := fold_left (fun (mm : b64 * b64) v => let pr := dot_product v n in (nmin (fst mm) pr, nmax (snd mm) pr)) poly (lo, hi) in
    is_finite (fst r) = true /\ is_finite (snd r) = true
    /\ B2R (fst r) <= B2R lo /\ B2R hi <= B2R (snd r)
    /\ (forall v, In v poly -> B2R (fst r) <= B2R (dot_product v n) <= B2R (snd r))
    /\ (B2R (fst r) = B2R lo \/ exists v, In v poly /\ B2R (fst r) = B2R (dot_product v n))
    /\ (B2R (snd r) = B2R hi \/ exists v, In v poly /\ B2R (snd r) = B2R (dot_product v n)).
  Proof.
    induction poly as [|x poly IH]; intros lo hi Fl Fh HF; cbn [fold_left].
    - cbn [fst snd]. repeat split; auto; try lra; intros; contradiction.
    - cbv zeta. cbn [fst snd].
      assert (Fx : is_finite (dot_product x n) = true) by (apply HF; now left).
      destruct (nmin_B lo (dot_product x n) Fl Fx) as (E1 & F1).
      destruct (nmax_B hi (dot_product x n) Fh Fx) as (E2 & F2).
      specialize (IH _ _ F1 F2 (fun v Hv => HF v (or_intror Hv))). cbv zeta in IH.
      set (r := fold_left _ poly _) in *. destruct IH as (G1 & G2 & A & B & C & D & E).
      rewrite E1 in A, D. rewrite E2 in B, E.
      pose proof (Rmin_l (B2R lo) (B2R (dot_product x n))). pose proof (Rmin_r (B2R lo) (B2R (dot_product x n))).
      pose proof (Rmax_l (B2R hi) (B2R (dot_product x n))). pose proof (Rmax_r (B2R hi) (B2R (dot_product x n))).
      split; auto. split; auto. split; [lra|]. split; [lra|].
      split; [intros v [<-|Hv]; [lra|auto]|]. split.
      + destruct D as [D|(v & Hv & D)]; [|right; exists v; split; [now right|assumption]].
        unfold Rmin in D. destruct Rle_dec; [now left|]. right. exists x. split; [now left|exact D].
      + destruct E as [E|(v & Hv & E)]; [|right; exists v; split; [now right|assumption]].
        unfold Rmax in E. destruct Rle_dec; [|now left]. right. exists x. split; [now left|exact E].
  Qed.

  Lemma fmax_big j (x : b64) : (j <= 1000)%Z -> bounded j x -> - B2R (@nfmax b64 NumB64) <= B2R x <= B2R (@nfmax b64 NumB64).
  Proof.
    intros Hj (F & B). pose proof (bpow_le radix2 j 1000 Hj) as H. rewrite B2R_fmax.
    assert (bpow radix2 1000 <= bpow radix2 emax - bpow radix2 (emax - prec)).
    { unfold emax, prec. assert (bpow radix2 1000 <= bpow radix2 1023) by (apply bpow_le; lia).
      assert (bpow radix2 (1024 - 53) <= bpow radix2 1023) by (apply bpow_le; lia).
      change 1024%Z with (1 + 1023)%Z at 1. rewrite (bpow_plus radix2 1 1023). change (bpow radix2 1) with 2. lra. }
    apply Rabs_le_iff in B. lra.
  Qed.

  Lemma extrema_val (n : point b64) j poly : (j <= 1000)%Z -> poly <> [] -> (forall v, In v poly -> bounded j (dot_product v n)) ->
    exists lo hi : b64, extrema_projected n poly = (lo, hi) /\ is_finite lo = true /\ is_finite hi = true
      /\ (forall v, In v poly -> B2R lo <= B2R (dot_product v n) <= B2R hi)
      /\ (exists v, In v poly /\ B2R lo = B2R (dot_product v n)) /\ (exists v, In v poly /\ B2R hi = B2R (dot_product v n)).
  Proof.
    intros Hj Hne HB. unfold extrema_projected.
    pose proof (extrema_B n poly (@nfmax b64 NumB64) (@nfmin b64 NumB64) fmax_fin fmin_fin (fun v Hv => proj1 (HB v Hv))) as H. cbv zeta in H.
    set (r := fold_left _ poly _) in *. destruct r as (lo, hi). cbn [fst snd] in H.
    change (binary_float prec emax) with b64 in H.
    destruct H as (F1 & F2 & A & B & C & D & E). exists lo, hi. repeat (split; [now auto|]).
    destruct poly as [|x poly]; [congruence|].
    assert (Hx : In x (x :: poly)) by now left. pose proof (C x Hx). pose proof (fmax_big j _ Hj (HB x Hx)) as Hb.
    pose proof B2R_fmin as Emin. pose proof B2R_fmax as Emax.
    split; [destruct D as [D|D]|destruct E as [E|E]]; auto; exists x; split; auto; lra.
  Qed.

  Section Axis.
    Context (a b : list (point b64)) (p q : point b64) (Ha : Forall (bpt k) a) (Hb : Forall (bpt k) b)
            (Na : a <> []) (Nb : b <> []) (Hp : bpt k p) (Hq : bpt k q)
            (HL : bpow radix2 (-400) <= extent2 (rp p) (rp q)).
    Let n := lnorm (rp p) (rp q).
    Let err := 6.1 * m * extent2 (rp p) (rp q).

    Lemma ext_true (c : list (point b64)) : Forall (bpt k) c -> c <> [] ->
      exists lo hi : b64, extrema_projected (fnorm p q) c = (lo, hi) /\ is_finite lo = true /\ is_finite hi = true
      /\ (forall v, In v c -> B2R lo <= proj n (rp v) + err /\ proj n (rp v) - err <= B2R hi)
      /\ (exists v, In v c /\ proj n (rp v) - err <= B2R lo) /\ (exists v, In v c /\ B2R hi <= proj n (rp v) + err).
    Proof.
      intros Hc Nc. rewrite Forall_forall in Hc.
      assert (HE : forall v, In v c -> bounded (2 * k + 4) (dot_product v (fnorm p q))
        /\ Rabs (B2R (dot_product v (fnorm p q)) - proj n (rp v)) <= err) by (intros v Hv; apply proj_err; auto).
      destruct (extrema_val (fnorm p q) (2 * k + 4) c) as (lo & hi & E & F1 & F2 & A & (v1 & I1 & B1) & (v2 & I2 & B2)); auto; [lia|intros v Hv; now apply HE|].
      exists lo, hi. repeat (split; [now auto|]). split; [|split].
      - intros v Hv. destruct (HE v Hv) as (_ & G). specialize (A v Hv). apply Rabs_le_iff in G. lra.
      - exists v1. split; auto. destruct (HE v1 I1) as (_ & G). apply Rabs_le_iff in G. lra.
      - exists v2. split; auto. destruct (HE v2 I2) as (_ & G). apply Rabs_le_iff in G. lra.
    Qed.

    (** a wide gap is seen *)
    Lemma axis_gap : (forall u v, In u a -> In v b -> proj n (rp u) + 2 * err <= proj n (rp v))
        \/ (forall u v, In u a -> In v b -> proj n (rp v) + 2 * err <= proj n (rp u)) ->
      is_separating_axis (fnorm p q) a b = true.
    Proof.
      intros H. unfold is_separating_axis.
      destruct (ext_true a Ha Na) as (la & ha & -> & Fla & Fha & _ & (u1 & Iu1 & Lu1) & (u2 & Iu2 & Lu2)).
      destruct (ext_true b Hb Nb) as (lb & hb & -> & Flb & Fhb & _ & (v1 & Iv1 & Lv1) & (v2 & Iv2 & Lv2)).
      rewrite !nltb_B by auto. destruct H as [H|H].
      - specialize (H u2 v1 Iu2 Iv1). rewrite (Rlt_bool_false (B2R lb) (B2R ha)) by lra. reflexivity.
      - specialize (H u1 v2 Iu1 Iv2). rewrite (Rlt_bool_false (B2R la) (B2R hb)) by lra. now rewrite andb_false_r.
    Qed.

    (** a deep overlap is seen *)
    Lemma axis_overlap u v u' v' : In u a -> In v b -> proj n (rp v) + 2 * err < proj n (rp u) ->
      In u' a -> In v' b -> proj n (rp u') + 2 * err < proj n (rp v') ->
      is_separating_axis (fnorm p q) a b = false.
    Proof.
      intros Iu Iv L Iu' Iv' L'. unfold is_separating_axis.
      destruct (ext_true a Ha Na) as (la & ha & -> & Fla & Fha & Ba & _).
      destruct (ext_true b Hb Nb) as (lb & hb & -> & Flb & Fhb & Bb & _).
      rewrite !nltb_B by auto. destruct (Ba u Iu) as (_ & A1), (Ba u' Iu') as (A2 & _).
      destruct (Bb v Iv) as (B1 & _), (Bb v' Iv') as (_ & B2).
      rewrite !Rlt_bool_true by lra. reflexivity.
    Qed.
  End Axis.

  (** the test of a zero normal is exact *)
  Lemma zero_norm p q : bpt k p -> bpt k q ->
    neqb (px (fnorm p q)) (nofZ 0) && neqb (py (fnorm p q)) (nofZ 0) = true <-> rp p = rp q.
  Proof.
    intros (P1 & P2) (Q1 & Q2). unfold fnorm. cbn [px py].
    assert (Z : forall x y : b64, bounded k x -> bounded k y -> neqb (nsub x y) (nofZ 0) = Req_bool (B2R x) (B2R y)).
    { intros x y Bx By.
      destruct (minus_val (k + 1) x y) as (E & (F & _)); [lia|apply Bx|apply By| |].
      { rewrite bpow_split. change (bpow radix2 1) with 2. destruct Bx as (_ & Bx), By as (_ & By).
        apply Rabs_le_iff in Bx, By. apply Rabs_le_iff. lra. }
      destruct (Zb_exact 0 ltac:(lia)) as (F0 & E0). change (nofZ 0) with (Zb 0). rewrite neqb_B by auto. rewrite E0, E.
      destruct (rnd_minus x y) as (e & He & ->). pose proof uro_small. apply Rabs_le_iff in He.
      case (Req_bool_spec (B2R x) (B2R y)); intros H1.
      - rewrite H1. apply Req_bool_true. ring.
      - apply Req_bool_false. apply Rmult_integral_contrapositive_currified; lra. }
    rewrite !Z by auto. rewrite andb_true_iff. unfold rp. split.
    - intros (A & B). revert A B. do 2 case Req_bool_spec; intros; try discriminate. congruence.
    - intros H. injection H as A B. split; apply Req_bool_true; congruence.
  Qed.

  Section Loop.
    Context (a b : list (point b64)) (Ha : Forall (bpt k) a) (Hb : Forall (bpt k) b) (Na : a <> []) (Nb : b <> []).

    Lemma loop_true : forall l p, bpt k p -> Forall (bpt k) l ->
      (forall u v, In (u, v) (chain (rp p) (map rp l)) -> u <> v -> bpow radix2 (-400) <= extent2 u v /\
         exists w x w' x', In w (map rp a) /\ In x (map rp b) /\ In w' (map rp a) /\ In x' (map rp b)
           /\ orient u v x + 12.2 * m * extent2 u v < orient u v w /\ orient u v w' + 12.2 * m * extent2 u v < orient u v x') ->
      separating_axes_loop a b p l = true.
    Proof.
      induction l as [|q l IH]; intros p Hp Hl H; [reflexivity|].
      inversion Hl as [|? ? Hq Hl']; subst. cbn [separating_axes_loop]. cbv zeta. fold (fnorm p q).
      assert (IHq : separating_axes_loop a b q l = true).
      { apply IH; auto. intros u v Hi. apply H. right. exact Hi. }
      destruct (neqb (px (fnorm p q)) (nofZ 0) && neqb (py (fnorm p q)) (nofZ 0)) eqn:EZ; auto.
      assert (Hne : rp p <> rp q) by (intros E; apply (zero_norm p q Hp Hq) in E; congruence).
      destruct (H (rp p) (rp q) (or_introl eq_refl) Hne) as (HL & w & x & w' & x' & Iw & Ix & Iw' & Ix' & L & L').
      apply in_map_iff in Iw as (w0 & <- & Iw), Ix as (x0 & <- & Ix), Iw' as (w0' & <- & Iw'), Ix' as (x0' & <- & Ix').
      rewrite (axis_overlap a b p q Ha Hb Na Nb Hp Hq HL w0 x0 w0' x0' Iw Ix); auto.
      - rewrite (lnorm_proj _ _ (rp x0)), (lnorm_proj _ _ (rp w0)). lra.
      - rewrite (lnorm_proj _ _ (rp x0')), (lnorm_proj _ _ (rp w0')). lra.
    Qed.

    Lemma loop_false : forall l p u v, bpt k p -> Forall (bpt k) l -> In (u, v) (chain (rp p) (map rp l)) ->
      bpow radix2 (-400) <= extent2 u v -> line_gap (12.2 * m) u v (map rp a) (map rp b) ->
      separating_axes_loop a b p l = false.
    Proof.
      induction l as [|q l IH]; intros p u v Hp Hl Hi HL HG; [destruct Hi|].
      inversion Hl as [|? ? Hq Hl']; subst. cbn [separating_axes_loop]. cbv zeta. fold (fnorm p q).
      cbn [map chain] in Hi. destruct Hi as [Hi|Hi].
      - injection Hi as <- <-.
        assert (Hne : rp p <> rp q).
        { intros E. rewrite E in HL. unfold extent2 in HL. rewrite !Rminus_eq_0, Rabs_R0, Rmax_left in HL by lra.
          pose proof (bpow_gt_0 radix2 (-400)). lra. }
        destruct (neqb (px (fnorm p q)) (nofZ 0) && neqb (py (fnorm p q)) (nofZ 0)) eqn:EZ;
          [apply (zero_norm p q Hp Hq) in EZ; contradiction|].
        rewrite (axis_gap a b p q Ha Hb Na Nb Hp Hq HL); auto.
        destruct HG as [G|G]; [left|right]; intros w x Iw Ix; specialize (G (rp w) (rp x) (in_map rp _ _ Iw) (in_map rp _ _ Ix));
          rewrite (lnorm_proj _ _ (rp w)), (lnorm_proj _ _ (rp x)); lra.
      - rewrite (IH q u v Hq Hl' Hi HL HG). destruct (_ && _); auto. now destruct is_separating_axis.
    Qed.

    Lemma axes_loop : exists p, bpt k p /\ separating_axes a b = Ok (separating_axes_loop a b p a)
      /\ chain (rp p) (map rp a) = poly_edges (map rp a).
    Proof.
      unfold separating_axes. destruct (exists_last Na) as (l & x & E). exists x.
      assert (Hx : In x a) by (rewrite E; apply in_or_app; right; now left).
      split; [rewrite Forall_forall in Ha; auto|]. split.
      - replace (aget a (zlen a - 1)%Z) with (Ok x); [reflexivity|]. symmetry.
        rewrite E. unfold zlen. rewrite app_length. cbn [length].
        replace (Z.of_nat (length l + 1) - 1)%Z with (Z.of_nat (length l)) by lia.
        apply aget_nat. rewrite nth_error_app2 by lia. now rewrite Nat.sub_diag.
      - unfold poly_edges. rewrite E at 2. rewrite map_app. cbn [map]. now rewrite last_last.
    Qed.

    Lemma axes_true : (forall u v, In (u, v) (poly_edges (map rp a)) -> u <> v -> bpow radix2 (-400) <= extent2 u v /\
         exists w x w' x', In w (map rp a) /\ In x (map rp b) /\ In w' (map rp a) /\ In x' (map rp b)
           /\ orient u v x + 12.2 * m * extent2 u v < orient u v w /\ orient u v w' + 12.2 * m * extent2 u v < orient u v x') ->
      separating_axes a b = Ok true.
    Proof.
      intros H. destruct axes_loop as (p & Hp & -> & E). f_equal. apply loop_true; auto. rewrite E. exact H.
    Qed.
    Lemma axes_false u v : In (u, v) (poly_edges (map rp a)) ->
      bpow radix2 (-400) <= extent2 u v -> line_gap (12.2 * m) u v (map rp a) (map rp b) ->
      separating_axes a b = Ok false.
    Proof.
      intros Hi HL HG. destruct axes_loop as (p & Hp & -> & E). f_equal. apply (loop_false a p u v); auto. now rewrite E.
    Qed.
  End Loop.
End Sat.

(** ** From regions to projections *)
Lemma hull_reach K u v p : hull K p -> exists w, In w K /\ orient u v p <= orient u v w.
Proof.
  intros (ws & El & Hpos & Hs & ->). rewrite (comb_orient u v ws K El Hs).
  assert (NK : K <> []) by (intros ->; destruct ws; [cbn in Hs; lra|discriminate]).
  assert (HM : exists w, In w K /\ forall x, In x K -> orient u v x <= orient u v w).
  { clear - NK. induction K as [|x K IH]; [congruence|]. destruct K as [|y K].
    - exists x. split; [now left|]. intros z [<-|[]]. lra.
    - destruct IH as (w & Iw & Hw); [discriminate|]. destruct (Rle_lt_dec (orient u v x) (orient u v w)).
      + exists w. split; [now right|]. intros z [<-|Hz]; auto.
      + exists x. split; [now left|]. intros z [<-|Hz]; [lra|]. specialize (Hw z Hz). lra. }
  destruct HM as (w & Iw & Hw). exists w. split; auto.
  rewrite <- (Rmult_1_l (orient u v w)), <- Hs. clear - El Hpos Hw. revert ws El Hpos.
  induction K as [|x K IH]; intros [|y ws] El Hpos; try discriminate; [unfold wsum; cbn; lra|].
  rewrite wsum_cons. inversion Hpos; subst. cbn [sumR].
  assert (wsum (orient u v) ws K <= sumR ws * orient u v w) by (apply IH; auto; intros z Hz; apply Hw; now right).
  assert (y * orient u v x <= y * orient u v w) by (apply Rmult_le_compat_l; auto; apply Hw; now left). lra.
Qed.

Lemma orient_swap u v p : orient v u p = - orient u v p. Proof. unfold orient. ring. Qed.

Lemma hull_reach_down K u v p : hull K p -> exists w, In w K /\ orient u v w <= orient u v p.
Proof.
  intros H. destruct (hull_reach K v u p H) as (w & Iw & L). exists w. split; auto.
  rewrite (orient_swap u v p), (orient_swap u v w) in L. lra.
Qed.

(** the corners of the diamond farthest to the left and to the right of a line *)
Lemma diamond_reach r c u v : 0 <= r -> exists p p', diamond r c p /\ diamond r c p'
  /\ orient u v p = orient u v c + r * extent2 u v /\ orient u v p' = orient u v c - r * extent2 u v.
Proof.
  intros Hr. unfold extent2. destruct (Rle_lt_dec (Rabs (py v - py u)) (Rabs (px v - px u))) as [H|H].
  - rewrite Rmax_left by lra.
    assert (E : exists s, Rabs s = r /\ (px v - px u) * s = r * Rabs (px v - px u)).
    { destruct (Rle_lt_dec 0 (px v - px u)); [exists r|exists (- r)]; rewrite ?Rabs_Ropp, (Rabs_right r) by lra; split; auto.
      - rewrite Rabs_right by lra. ring.
      - rewrite Rabs_left by lra. ring. }
    destruct E as (s & Es & E). exists (Pt (px c) (py c + s)), (Pt (px c) (py c - s)).
    unfold diamond, orient. cbn [px py]. rewrite !Rminus_eq_0, !Rabs_R0.
    replace (py c + s - py c) with s by ring. replace (py c - s - py c) with (- s) by ring. rewrite Rabs_Ropp, Es.
    repeat split; nra.
  - rewrite Rmax_right by lra.
    assert (E : exists s, Rabs s = r /\ (py v - py u) * s = r * Rabs (py v - py u)).
    { destruct (Rle_lt_dec 0 (py v - py u)); [exists r|exists (- r)]; rewrite ?Rabs_Ropp, (Rabs_right r) by lra; split; auto.
      - rewrite Rabs_right by lra. ring.
      - rewrite Rabs_left by lra. ring. }
    destruct E as (s & Es & E). exists (Pt (px c - s) (py c)), (Pt (px c + s) (py c)).
    unfold diamond, orient. cbn [px py]. rewrite !Rminus_eq_0, !Rabs_R0.
    replace (px c + s - px c) with s by ring. replace (px c - s - px c) with (- s) by ring. rewrite Rabs_Ropp, Es.
    repeat split; nra.
Qed.

Lemma axes_diamond k (a b : list (point b64)) c r : (-250 <= k <= 400)%Z -> Forall (bpt k) a -> Forall (bpt k) b ->
  (forall u v, In (u, v) (poly_edges (map rp a)) -> plain_side u v) ->
  7 * bpow radix2 (k - 53) <= r -> (forall p, diamond r c p -> hull (map rp a) p /\ hull (map rp b) p) ->
  separating_axes a b = Ok true.
Proof.
  intros Hk Ha Hb HP Hr HD.
  assert (Em : uro * bpow radix2 k = bpow radix2 (k - 53)) by (unfold uro; rewrite <- bpow_plus; f_equal; lia).
  pose proof (bpow_gt_0 radix2 (k - 53)) as Pm.
  assert (HC : diamond r c c) by (unfold diamond; rewrite !Rminus_eq_0, Rabs_R0; lra).
  assert (N : forall l, hull (map rp l) c -> l <> []).
  { intros l (ws & El & _ & Hs & _) ->. destruct ws; [cbn in Hs; lra|discriminate]. }
  apply (axes_true k); auto; try (apply N; now apply HD).
  intros u v Hi Hne. destruct (HP u v Hi) as [->|HL]; [congruence|]. split; auto.
  destruct (diamond_reach r c u v) as (p & p' & Dp & Dp' & E & E'); [lra|].
  destruct (HD p Dp) as (A1 & B1), (HD p' Dp') as (A2 & B2).
  destruct (hull_reach _ u v p A1) as (w & Iw & Lw), (hull_reach_down _ u v p' B2) as (x & Ix & Lx).
  destruct (hull_reach_down _ u v p' A2) as (w' & Iw' & Lw'), (hull_reach _ u v p B1) as (x' & Ix' & Lx').
  exists w, x, w', x'. repeat (split; [assumption|]). rewrite Em.
  assert (12.2 * bpow radix2 (k - 53) * extent2 u v < 2 * r * extent2 u v).
  { pose proof (bpow_gt_0 radix2 (-400)). apply Rmult_lt_compat_r; lra. }
  split; lra.
Qed.

Lemma line_gap_le d d' u v a b : d <= d' -> line_gap d' u v a b -> line_gap d u v a b.
Proof.
  intros Hd. assert (HE : 0 <= extent2 u v) by (unfold extent2; eapply Rle_trans; [apply Rabs_pos|apply Rmax_l]).
  assert (d * extent2 u v <= d' * extent2 u v) by now apply Rmult_le_compat_r.
  intros [G|G]; [left|right]; intros w x Hw Hx; specialize (G w x Hw Hx); lra.
Qed.
Lemma line_gap_sym d u v a b : line_gap d u v a b -> line_gap d u v b a.
Proof. intros [G|G]; [right|left]; intros w x Hw Hx; auto. Qed.
Lemma line_gap_swap d u v a b : line_gap d u v a b -> line_gap d v u a b.
Proof.
  intros [G|G]; [right|left]; intros w x Hw Hx; specialize (G w x Hw Hx);
    rewrite (extent2_sym v u), (orient_swap u v w), (orient_swap u v x); lra.
Qed.

Lemma axes_line_gap k (a b : list (point b64)) u v : (-250 <= k <= 400)%Z -> Forall (bpt k) a -> Forall (bpt k) b ->
  a <> [] -> b <> [] -> (In (u, v) (poly_edges (map rp a)) \/ In (v, u) (poly_edges (map rp a))) -> u <> v -> plain_side u v ->
  line_gap (13 * bpow radix2 (k - 53)) u v (map rp a) (map rp b) -> separating_axes a b = Ok false.
Proof.
  intros Hk Ha Hb Na Nb Hi Hne [->|HL] HG; [congruence|].
  assert (Em : uro * bpow radix2 k = bpow radix2 (k - 53)) by (unfold uro; rewrite <- bpow_plus; f_equal; lia).
  pose proof (bpow_gt_0 radix2 (k - 53)) as Pm.
  apply (line_gap_le (12.2 * (uro * bpow radix2 k))) in HG; [|rewrite Em; lra].
  destruct Hi as [Hi|Hi]; [apply (axes_false k Hk a b Ha Hb Na Nb u v); auto|].
  apply (axes_false k Hk a b Ha Hb Na Nb v u); auto; [now rewrite extent2_sym|now apply line_gap_swap].
Qed.
