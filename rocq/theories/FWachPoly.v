(** Wachspress weights in binary64: one polygon and one point. *)
From Coq Require Import Reals Lra Psatz.
From Flocq Require Import IEEE754.BinarySingleNaN Core.
From Verif Require Import RBase NumB64 NumRoom FBase FBuild MUtils MGeometry MAlgorithms FPoint FCut FLocate FWeights
  SpecTree SpecPoly SpecGeom PApi PPartition GTriangle GConvex GHull GWach GWachSpec PropWach SpecWach FWach FWachSide FWachLoop.
Open Scope R_scope.

Fixpoint triples (a b : point b64) (cs : list (point b64)) : list (point b64 * point b64 * point b64) :=
  match cs with [] => [] | c :: t => (a, b, c) :: triples b c t end.
Lemma triples_in cs : forall a b x y z, In (x, y, z) (triples a b cs) -> In (x, y) ((a, b) :: bchain b cs) /\ In (y, z) (bchain b cs).
Proof.
  induction cs as [|c cs IH]; intros a b x y z H; [destruct H|]. cbn [triples] in H. destruct H as [H|H].
  - inversion H; subst. split; [now left|now left].
  - apply IH in H. destruct H as (H1 & H2). split; [|now right]. destruct H1 as [H1|H1]; right; [left; auto|now right].
Qed.

Lemma quots_intro p tol cs : forall a b,
  (forall x y z, In (x, y, z) (triples a b cs) -> withinB p tol x y = false -> withinB p tol y z = false ->
     ndiv (nmul (nofZ 2) (areaB x y z)) (nmul (areaB x y p) (areaB y z p)) = Ok (wtB p x y z)) -> quots p tol a b cs.
Proof.
  induction cs as [|c cs IH]; intros a b H; cbn; auto. split; [apply H; now left|]. apply IH. intros x y z Hx. apply H. now right.
Qed.

Lemma sumR_le h : forall l, Forall (fun w => w <= h) l -> sumR l <= IZR (zlen l) * h.
Proof.
  induction l as [|x l IH]; intros H; [unfold zlen; cbn; lra|]. inversion H as [|? ? H1 H2]; subst. specialize (IH H2). cbn [sumR].
  assert (En : IZR (zlen (x :: l)) = IZR (zlen l) + 1) by (unfold zlen; cbn [length]; rewrite Nat2Z.inj_succ, <- Z.add_1_r, plus_IZR; reflexivity).
  rewrite En. lra.
Qed.
Lemma sumR_ge_in x : forall l, Forall (fun w => 0 <= w) l -> In x l -> x <= sumR l.
Proof.
  induction l as [|y l IH]; intros H Hin; [destruct Hin|]. inversion H as [|? ? H1 H2]; subst. cbn [sumR].
  assert (0 <= sumR l) by (clear - H2; induction H2; cbn [sumR]; lra). destruct Hin as [->|Hin]; [lra|]. specialize (IH H2 Hin). lra.
Qed.

(** a polygon and a point keep the same sign all round *)
Lemma hull_signs poly p D : 0 < D -> convex poly -> hull poly p ->
  (forall a b c, In (a, b) (poly_edges poly) -> In (b, c) (poly_edges poly) -> D <= Rabs (orient a b c)) ->
  (forall u v, In (u, v) (poly_edges poly) -> orient u v p <> 0) -> exists s, signs p s poly.
Proof.
  intros PD [HC|HC] Hh HT HA.
  - exists 1. split; [now left|]. split.
    + intros u v H. apply in_poly_hull in Hh; auto. pose proof (Hh u v H) as H0. pose proof (HA u v H). lra.
    + intros a b c H1 H2. pose proof (HT a b c H1 H2) as HD. destruct HC as (Hl & HN & HO).
      rewrite Rmult_1_l. apply HO; auto.
      * apply edges_in in H2. tauto.
      * intros ->. replace (orient a b a) with 0 in HD by (unfold orient; ring). rewrite Rabs_R0 in HD. lra.
      * intros ->. replace (orient a b b) with 0 in HD by (unfold orient; ring). rewrite Rabs_R0 in HD. lra.
  - exists (-1). split; [now right|]. apply hull_rev in Hh. apply in_poly_hull in Hh; auto. split.
    + intros u v H. pose proof (HA u v H) as H1. rewrite <- (rev_involutive poly) in H. apply edges_rev_in in H. pose proof (Hh v u H) as H0. rewrite orient_swap in H0. lra.
    + intros a b c H1 H2. pose proof (HT a b c H1 H2) as HD. destruct HC as (Hl & HN & HO).
      rewrite <- (rev_involutive poly) in H1, H2. apply edges_rev_in in H1, H2. assert (0 < orient c b a); [|replace (orient a b c) with (- orient c b a) by (unfold orient; ring); lra].
      apply HO; auto.
      * apply edges_in in H1. tauto.
      * intros ->. replace (orient c b c) with 0 in HD by (unfold orient; ring). rewrite Rabs_R0 in HD. lra.
      * intros ->. replace (orient b b c) with 0 in HD by (unfold orient; ring). rewrite Rabs_R0 in HD. lra.
Qed.

Lemma Forall2_imp {A B} (P Q : A -> B -> Prop) l l' : (forall a b, P a b -> Q a b) -> Forall2 P l l' -> Forall2 Q l l'.
Proof. intros H F. induction F; constructor; auto. Qed.

Lemma Forall2_maps {A B A' B'} (f : A -> A') (g : B -> B') (P : A -> B -> Prop) (Q : A' -> B' -> Prop) l l' :
  (forall a b, P a b -> Q (f a) (g b)) -> Forall2 P l l' -> Forall2 Q (map f l) (map g l').
Proof. intros H F. induction F; constructor; auto. Qed.

Section Poly.
  Context (k : Z) (Hk : (-150 <= k <= 250)%Z).
  Variable p : point b64.
  Variable tol : b64.
  Hypothesis Bp : bpt k p.
  Hypothesis Bt : bounded k tol.
  Hypothesis Pt : 0 <= B2R tol.
  Variables W D : R.
  Variable v0 : point b64.
  Variable l : list (point b64).
  Let poly := v0 :: l.
  Hypothesis BP : Forall (bpt k) poly.
  Hypothesis HC : clear_weights W D (B2R tol) (map rp poly) (rp p).
  Let S := uro * (W * W).
  Let t := B2R tol.

  Let HW : bpow radix2 (-200) <= W <= bpow radix2 252. Proof. apply HC. Qed.
  Let HD : 1000 * (uro * (W * W)) <= D. Proof. apply HC. Qed.
  Let PD : 0 < D. Proof. exact (D_pos W D HW HD). Qed.

  Lemma edges_next (P : list pt) u v : In (u, v) (poly_edges P) -> exists w, In (v, w) (poly_edges P).
  Proof.
    destruct P as [|x r]; [intros []|]. intros H. pose proof (proj2 (edges_in _ _ _ H)) as Hv.
    change (x :: r) with ((x :: r) : list pt) in Hv.
    assert (Hc : In (u, v) ((last r x, x) :: chain x (r ++ [x]))) by now apply rot_edges.
    apply in_split in Hv as (l1 & l2 & E). 
    assert (G : forall (cs : list pt) y, In v (removelast (y :: cs)) -> exists w, In (v, w) (chain y cs)).
    { induction cs as [|c cs IH]; intros y Hin; [destruct Hin|]. change (removelast (y :: c :: cs)) with (y :: removelast (c :: cs)) in Hin.
      destruct Hin as [->|Hin]; [exists c; now left|]. destruct (IH c Hin) as (w & Hw). exists w. now right. }
    destruct (G (r ++ [x]) x) as (w & Hw).
    { change (x :: r ++ [x]) with ((x :: r) ++ [x]). rewrite removelast_last, E. apply in_or_app. right. now left. }
    exists w. apply rot_edges. now right.
  Qed.

  Lemma side_facts u v : In u poly -> In v poly -> In (rp u, rp v) (poly_edges (map rp poly)) ->
    bpow radix2 (-490) <= dist2 (rp v) (rp u)
    /\ (withinB p tol u v = false -> goodA k W D (areaB u v p) (Rabs (orient (rp u) (rp v) (rp p))) /\ ~ line_near (0.98 * t) (rp u) (rp v) (rp p))
    /\ (withinB p tol u v = true -> line_near (1.01 * t) (rp u) (rp v) (rp p)).
  Proof.
    intros Iu Iv He. rewrite Forall_forall in BP. pose proof (BP _ Iu) as Bu. pose proof (BP _ Iv) as Bv.
    destruct HC as (_ & _ & HS & HT & HE).
    assert (SP : forall x y, In x (p :: poly) -> In y (p :: poly) -> Rabs (px (rp y) - px (rp x)) <= W /\ Rabs (py (rp y) - py (rp x)) <= W).
    { intros x y Hx Hy. apply HS; change (rp p :: map rp poly) with (map rp (p :: poly)); now apply in_map. }
    destruct (SP u v ltac:(now right) ltac:(now right)) as (X1 & Y1). destruct (SP u p ltac:(now right) ltac:(now left)) as (X2 & Y2).
    pose proof (W_pos W HW) as PW. pose proof (D_low W D HW HD) as LD. pose proof (WW_low W HW) as LW.
    pose proof (bpow_gt_0 radix2 (-400)) as P400. set (q := dist2 (rp v) (rp u)).
    (* the length of the side *)
    assert (Hq : bpow radix2 (-490) <= q).
    { destruct (edges_next _ _ _ He) as (w & Hw). pose proof (HT _ _ _ He Hw) as H0.
      pose proof (proj2 (edges_in _ _ _ Hw)) as Iw. apply in_map_iff in Iw as (w' & <- & Iw).
      destruct (SP u w' ltac:(now right) ltac:(now right)) as (X3 & Y3).
      assert (CS : orient (rp u) (rp v) (rp w') * orient (rp u) (rp v) (rp w') <= q * (2 * (W * W))).
      { apply Rle_trans with (q * dist2 (rp w') (rp u)).
        - unfold q, dist2, orient.
          set (x := px (rp v) - px (rp u)). set (y := py (rp v) - py (rp u)). set (x' := px (rp w') - px (rp u)). set (y' := py (rp w') - py (rp u)).
          pose proof (Rle_0_sqr (x * x' + y * y')) as Q. unfold Rsqr in Q. nra.
        - assert (0 <= q) by (unfold q, dist2; apply Rplus_le_le_0_compat; apply Rle_0_sqr). apply Rmult_le_compat_l; auto.
          unfold dist2. apply Rabs_le_iff in X3, Y3. nra. }
      assert (L2 : D * D <= q * (2 * (W * W))).
      { eapply Rle_trans; [|exact CS]. set (o := orient (rp u) (rp v) (rp w')) in *. replace (o * o) with (Rabs o * Rabs o) by (unfold Rabs; destruct (Rcase_abs o); ring).
        apply Rmult_le_compat; lra. }
      pose proof (bpow_gt_0 radix2 (-44)) as P44.
      assert (L3 : bpow radix2 (-44) * (W * W) * (bpow radix2 (-44) * (W * W)) <= D * D).
      { assert (0 <= bpow radix2 (-44) * (W * W)) by (apply Rmult_le_pos; lra). apply Rmult_le_compat; lra. }
      assert (L4 : bpow radix2 (-88) * (W * W) <= 2 * q).
      { apply Rmult_le_reg_r with (W * W); [lra|]. replace (bpow radix2 (-88)) with (bpow radix2 (-44) * bpow radix2 (-44)) by (rewrite <- bpow_plus; reflexivity). lra. }
      assert (L5 : bpow radix2 (-88) * bpow radix2 (-400) <= bpow radix2 (-88) * (W * W)) by (apply Rmult_le_compat_l; [apply bpow_ge_0|auto]).
      rewrite <- bpow_plus in L5. change (-88 + -400)%Z with (1 + (1 + -490))%Z in L5. rewrite !bpow_plus in L5. change (bpow radix2 1) with 2 in L5.
      pose proof (bpow_gt_0 radix2 (-490)). lra. }
    split; auto.
    pose proof (HE _ _ He) as Ht. fold t in Ht. fold q in Ht.
    assert (Htq : bpow radix2 (-900) <= t * t * q).
    { pose proof (D_abs W D HW HD) as LA. pose proof (bpow_gt_0 radix2 (-444)).
      assert (H8 : bpow radix2 (-444) * bpow radix2 (-444) <= D * D) by (apply Rmult_le_compat; lra).
      rewrite <- bpow_plus in H8. apply Rle_trans with (bpow radix2 (-444 + -444)); [apply bpow_le; lia|]. pose proof (bpow_gt_0 radix2 (-444 + -444)). lra. }
    destruct (cross_W k Hk u v p W 1 Bu Bv Bp ltac:(eapply Rle_trans; [|apply HW]; apply bpow_le; lia) ltac:(lra) X1 Y1 ltac:(rewrite Rmult_1_l; exact X2) ltac:(rewrite Rmult_1_l; exact Y2)) as (BA & EA).
    fold (areaB u v p) in BA, EA. fold S in EA. set (A := areaB u v p) in *. set (o := orient (rp u) (rp v) (rp p)) in *.
    assert (EA' : Rabs (B2R A - Rabs o) <= 8.3 * S) by lra.
    (* the height of the tolerance above the side *)
    set (h := t * sqrt q). fold t in Pt.
    assert (Pq : 0 < q) by (pose proof (bpow_gt_0 radix2 (-490)); lra).
    assert (Ph : 0 <= h) by (unfold h; apply Rmult_le_pos; [auto|apply sqrt_pos]).
    assert (Eh : h * h = t * t * q) by (unfold h; rewrite <- (sqrt_def q) at 3 by lra; ring).
    assert (PDD : 0 < D * D) by now apply Rmult_lt_0_compat.
    assert (HS' : 1118 * S <= h).
    { assert (1.118 * D <= h); [|unfold S; lra]. apply Rsqr_incr_0_var; auto. unfold Rsqr. rewrite Eh. lra. }
    assert (Ph' : 0 < h) by (assert (0 < S) by exact (S_pos W HW); lra).
    assert (PA : 0 <= B2R A) by (unfold A, areaB; rewrite (proj1 (nabs_B _)); apply Rabs_pos).
    apply Rabs_le_iff in EA'. split.
    - intros Hw. pose proof (wpd_low k Hk A tol u v Bu Bv BA Bt Pt Hq Htq Hw) as Hl. cbv zeta in Hl. fold q t in Hl. rewrite <- Eh in Hl.
      assert (H1 : 0.9899 * h <= B2R A) by (apply Rsqr_incr_0_var; auto; unfold Rsqr; nra).
      assert (H2 : 0.982 * h <= Rabs o) by lra.
      split.
      + split; auto. split; [apply Rabs_le_iff; fold S; lra|]. split.
        * assert (1.118 * D <= h) by (apply Rsqr_incr_0_var; auto; unfold Rsqr; rewrite Eh; lra). lra.
        * unfold o, orient. assert (L1 : Rabs ((px (rp v) - px (rp u)) * (py (rp p) - py (rp u))) <= W * W) by now apply mul_abs.
          assert (L2 : Rabs ((py (rp v) - py (rp u)) * (px (rp p) - px (rp u))) <= W * W) by now apply mul_abs.
          apply Rabs_le_iff in L1, L2. apply Rabs_le_iff. lra.
      + unfold line_near. fold o. replace (o * o) with (Rabs o * Rabs o) by (unfold Rabs; destruct (Rcase_abs o); ring). fold q.
        replace (0.98 * t * (0.98 * t) * q) with (0.98 * h * (0.98 * h)) by (replace (0.98 * h * (0.98 * h)) with (0.98 * 0.98 * (h * h)) by ring; rewrite Eh; ring).
        assert (0.98 * h * (0.98 * h) <= Rabs o * Rabs o) by (apply Rmult_le_compat; lra). lra.
    - intros Hw. pose proof (wpd_high k Hk A tol u v Bu Bv BA Bt Pt Hq Htq Hw) as Hl. cbv zeta in Hl. fold q t in Hl. rewrite <- Eh in Hl.
      assert (H1 : B2R A <= 1.002 * h) by (apply Rsqr_incr_0_var; [unfold Rsqr; nra|lra]).
      assert (H2 : Rabs o <= 1.0095 * h) by lra.
      unfold line_near. fold o. replace (o * o) with (Rabs o * Rabs o) by (unfold Rabs; destruct (Rcase_abs o); ring). fold q.
      replace (1.01 * t * (1.01 * t) * q) with (1.01 * 1.01 * (h * h)) by (rewrite Eh; ring).
      pose proof (Rabs_pos o). assert (Rabs o * Rabs o <= 1.0095 * h * (1.0095 * h)) by (apply Rmult_le_compat; lra).
      assert (0 < h * h) by now apply Rmult_lt_0_compat. lra.
  Qed.

  Lemma corner_good a b c : In a poly -> In b poly -> In c poly -> In (rp a, rp b) (poly_edges (map rp poly)) -> In (rp b, rp c) (poly_edges (map rp poly)) ->
    goodA k W D (areaB a b c) (Rabs (orient (rp a) (rp b) (rp c))).
  Proof.
    intros Ia Ib Ic H1 H2. rewrite Forall_forall in BP. pose proof (BP _ Ia) as Ba. pose proof (BP _ Ib) as Bb. pose proof (BP _ Ic) as Bc.
    destruct HC as (_ & _ & HS & HT & HE).
    assert (SP : forall x y, In x poly -> In y poly -> Rabs (px (rp y) - px (rp x)) <= W /\ Rabs (py (rp y) - py (rp x)) <= W).
    { intros x y Hx Hy. apply HS; right; now apply in_map. }
    destruct (SP a b Ia Ib) as (X1 & Y1). destruct (SP a c Ia Ic) as (X2 & Y2).
    destruct (cross_W k Hk a b c W 1 Ba Bb Bc ltac:(eapply Rle_trans; [|apply HW]; apply bpow_le; lia) ltac:(lra) X1 Y1 ltac:(rewrite Rmult_1_l; exact X2) ltac:(rewrite Rmult_1_l; exact Y2)) as (BA & EA).
    split; auto. split; [unfold areaB; lra|]. split; [now apply HT|].
    unfold orient. assert (L1 : Rabs ((px (rp b) - px (rp a)) * (py (rp c) - py (rp a))) <= W * W) by now apply mul_abs.
    assert (L2 : Rabs ((py (rp b) - py (rp a)) * (px (rp c) - px (rp a))) <= W * W) by now apply mul_abs.
    apply Rabs_le_iff in L1, L2. apply Rabs_le_iff. lra.
  Qed.

  Let a0 := last l v0.
  Let cs := l ++ [v0].

  Lemma loop_pair u v : In (u, v) ((a0, v0) :: bchain v0 cs) -> In u poly /\ In v poly /\ In (rp u, rp v) (poly_edges (map rp poly)).
  Proof.
    intros H. assert (Ia : In a0 poly).
    { unfold a0, poly. destruct l as [|x r]; [now left|]. right. rewrite (last_cons r x v0). clear. revert x.
      induction r as [|y r IH]; intros x; [now left|]. right. rewrite (last_cons r y x). apply IH. }
    assert (G : forall (r : list (point b64)) x, In (u, v) (bchain x r) -> In u (x :: r) /\ In v r).
    { clear. induction r as [|y r IH]; intros x H; [destruct H|]. destruct H as [H|H]; [inversion H; subst; split; now left|].
      apply IH in H. destruct H as (H1 & H2). split; [right; auto|right; auto]. }
    assert (Ic : forall x, In x (v0 :: cs) -> In x poly).
    { unfold cs, poly. intros x [->|Hx]; [now left|]. apply in_app_or in Hx. destruct Hx as [Hx|[->|[]]]; [now right|now left]. }
    split; [|split].
    - destruct H as [H|H]; [inversion H; subst; auto|]. apply G in H. apply Ic, H.
    - destruct H as [H|H]; [inversion H; subst; now left|]. apply G in H. apply Ic. right. apply H.
    - unfold poly. cbn [map]. apply rot_edges. unfold a0, cs in H.
      replace (last (map rp l) (rp v0)) with (rp (last l v0)).
      + destruct H as [H|H]; [inversion H; subst; now left|]. right. apply bchain_in in H. now rewrite map_app in H.
      + clear. revert v0. induction l as [|x r IH]; intros y; auto. cbn [map]. rewrite (last_cons r x y), (last_cons (map rp r) (rp x) (rp y)). apply IH.
  Qed.

  Lemma triple_good x y z : In (x, y, z) (triples a0 v0 cs) -> goodA k W D (areaB x y z) (Rabs (orient (rp x) (rp y) (rp z))).
  Proof.
    intros H. apply triples_in in H. destruct H as (H1 & H2). apply loop_pair in H1. assert (H3 : In (y, z) ((a0, v0) :: bchain v0 cs)) by now right.
    apply loop_pair in H3. now apply corner_good.
  Qed.

  Lemma all_quots : quots p tol a0 v0 cs.
  Proof.
    apply quots_intro. intros x y z H W1 W2. pose proof (triple_good x y z H) as G. apply triples_in in H. destruct H as (H1 & H2).
    apply loop_pair in H1. assert (H3 : In (y, z) ((a0, v0) :: bchain v0 cs)) by now right. apply loop_pair in H3.
    destruct (side_facts x y) as (_ & G1 & _); try tauto. destruct (side_facts y z) as (_ & G2 & _); try tauto.
    exact (proj1 (weight_rel k Hk W D HW HD _ _ _ _ _ _ G (proj1 (G1 W1)) (proj1 (G2 W2)))).
  Qed.

  Lemma vals r : forall a b,
    (forall u v, In (u, v) ((a, b) :: bchain b r) -> goodA k W D (areaB u v p) (Rabs (orient (rp u) (rp v) (rp p)))) ->
    (forall x y z, In (x, y, z) (triples a b r) -> goodA k W D (areaB x y z) (Rabs (orient (rp x) (rp y) (rp z)))) ->
    Forall2 (fun w w0 => is_finite w = true /\ D / (2 * (W * W) * (W * W)) <= w0 <= 4 * (W * W) / (D * D) /\ rel (33 * (S / D)) (B2R w) w0)
      (wtsB p a b r) (wts (rp p) (rp a) (rp b) (map rp r)).
  Proof.
    induction r as [|c r IH]; intros a b HA HT; cbn [wtsB wts map]; constructor.
    - pose proof (HT a b c ltac:(now left)) as G. pose proof (HA a b ltac:(now left)) as G1. pose proof (HA b c ltac:(right; now left)) as G2.
      destruct (weight_rel k Hk W D HW HD _ _ _ _ _ _ G G1 G2) as (_ & (F & _) & R0).
      destruct G as (_ & _ & C1 & C2), G1 as (_ & _ & A1 & A2), G2 as (_ & _ & A3 & A4).
      split; auto. split; [|exact R0]. split; [apply wt_low; auto; lra|apply wt_high; auto; lra].
    - apply IH.
      + intros u v [E|E]; apply HA; [right; left; auto|right; now right].
      + intros x y z H. apply HT. now right.
  Qed.

  Theorem float_wachspress row : NoDup (map rp poly) -> (3 <= length poly)%nat -> (length poly <= length row)%nat -> (zlen poly <= 2 ^ 40)%Z ->
    (exists ws ws0, wachspress_weights poly p row tol = Ok (ws ++ skipn (length poly) row)
       /\ (forall u v, In (u, v) (poly_edges (map rp poly)) -> ~ line_near (0.98 * t) u v (rp p))
       /\ wachspress (map rp poly) (rp p) ws0
       /\ Forall2 (fun w w0 => is_finite w = true /\ 0 < w0 /\ rel (72 * (S / D) + 2 * (IZR (zlen poly) * uro)) (B2R w) w0) ws ws0
       /\ (convex (map rp poly) -> hull (map rp poly) (rp p) -> comb ws0 (map rp poly) = rp p))
    \/ (exists out u v i j w0 x y, wachspress_weights poly p row tol = Ok out
       /\ In (rp u, rp v) (poly_edges (map rp poly)) /\ line_near (1.01 * t) (rp u) (rp v) (rp p)
       /\ nth_error poly i = Some u /\ nth_error poly j = Some v /\ i <> j
       /\ 0 <= w0 /\ w0 * w0 * dist2 (rp v) (rp u) = dist2 (rp p) (rp u)
       /\ length out = length row /\ nth_error out i = Some x /\ nth_error out j = Some y
       /\ (forall e z, e <> i -> e <> j -> nth_error out e = Some z -> z = Zb 0)
       /\ is_finite x = true /\ is_finite y = true
       /\ Rabs (B2R x - (1 - w0)) <= 14 * uro * (1 + w0) /\ Rabs (B2R y - w0) <= 12 * uro * (1 + w0)).
  Proof.
    intros HN Hl3 Hr Hn.
    assert (Hlc : length cs = length poly) by (unfold cs, poly; rewrite app_length; cbn; lia).
    assert (IDX : forall u v i j, In u poly -> In v poly -> In (rp u, rp v) (poly_edges (map rp poly)) -> nth_error poly i = Some u -> nth_error poly j = Some v -> i <> j).
    { intros u v i j _ _ He Hi Hj ->. assert (u = v) by congruence. subst v. exact (edges_neq _ _ _ HN ltac:(rewrite map_length; lia) He eq_refl). }
    (* what an interpolation on a side gives *)
    assert (SIDE : forall u v i j ws', In (u, v) ((a0, v0) :: bchain v0 cs) -> withinB p tol u v = true ->
      nth_error poly i = Some u -> nth_error poly j = Some v -> length ws' = length row ->
      exists out w0 x y, interp_edge_case u (to_vector u v) p ws' (Z.of_nat i) (Z.of_nat j) = Ok out
       /\ In (rp u, rp v) (poly_edges (map rp poly)) /\ line_near (1.01 * t) (rp u) (rp v) (rp p) /\ i <> j
       /\ 0 <= w0 /\ w0 * w0 * dist2 (rp v) (rp u) = dist2 (rp p) (rp u)
       /\ length out = length row /\ nth_error out i = Some x /\ nth_error out j = Some y
       /\ (forall e z, e <> i -> e <> j -> nth_error out e = Some z -> z = Zb 0)
       /\ is_finite x = true /\ is_finite y = true
       /\ Rabs (B2R x - (1 - w0)) <= 14 * uro * (1 + w0) /\ Rabs (B2R y - w0) <= 12 * uro * (1 + w0)).
    { intros u v i j ws' Huv Hw Hi Hj L. apply loop_pair in Huv. destruct Huv as (Iu & Iv & He).
      destruct (side_facts u v Iu Iv He) as (Hq & _ & HT). specialize (HT Hw).
      rewrite Forall_forall in BP. pose proof (BP _ Iu) as Bu. pose proof (BP _ Iv) as Bv.
      destruct (side_weight k Hk u v p Bu Bv Bp Hq) as (w & Ew & Fw & Hww & F1 & H1). cbv zeta in *.
      assert (Ki : (i < length ws')%nat) by (assert (i < length poly)%nat by (apply nth_error_Some; congruence); lia).
      assert (Kj : (j < length ws')%nat) by (assert (j < length poly)%nat by (apply nth_error_Some; congruence); lia).
      pose proof (IDX u v i j Iu Iv He Hi Hj) as Hne.
      destruct (twoB_spec (length ws') i j (nsub (nofZ 1) w) w Ki Kj Hne) as (LO & N1 & N2 & N3).
      exists (twoB (length ws') i j (nsub (nofZ 1) w) w), (sqrt (dist2 (rp p) (rp u)) / sqrt (dist2 (rp v) (rp u))), (nsub (nofZ 1) w), w.
      split; [now apply interpB|]. split; auto. split; auto. split; auto.
      assert (Pq : 0 < dist2 (rp v) (rp u)) by (pose proof (bpow_gt_0 radix2 (-490)); lra).
      pose proof (sqrt_lt_R0 _ Pq) as Ps.
      assert (Pp : 0 <= dist2 (rp p) (rp u)) by (unfold dist2; apply Rplus_le_le_0_compat; apply Rle_0_sqr).
      split; [apply Rmult_le_pos; [apply sqrt_pos|apply Rlt_le, Rinv_0_lt_compat; auto]|].
      split.
      { rewrite <- (sqrt_def (dist2 (rp p) (rp u))) at 3 by auto. rewrite <- (sqrt_def (dist2 (rp v) (rp u))) at 3 by lra. field. lra. }
      rewrite LO. repeat (split; auto). }
    assert (Ha : nth_error poly (length l) = Some a0).
    { unfold a0, poly. clear. revert v0. induction l as [|x r IH]; intros y; auto. cbn [length nth_error]. rewrite (last_cons r x y). apply IH. }
    assert (EQ : wachspress_weights poly p row tol =
      if withinB p tol a0 v0 then interp_edge_case a0 (to_vector a0 v0) p row (zlen poly - 1)%Z 0%Z
      else let* r := wachspress_loop poly p tol (zlen poly) (length cs) 0%Z row (nofZ 0) a0 v0 (to_vector a0 v0) (areaB a0 v0 p) in
        match r with
        | inl ws => Ok ws
        | inr (weights, w_sum) =>
            for_range 0 (zlen poly) (fun i weights => let* w := aget weights i in let* w := ndiv w w_sum in aset weights i w) weights
        end).
    { unfold wachspress_weights. replace (aget poly (-1)%Z) with (Ok (A:=point b64) a0) by (symmetry; apply last_vertexB).
      cbn [bind]. change (aget poly 0%Z) with (Ok (A:=point b64) v0). cbn [bind]. rewrite Hlc. reflexivity. }
    destruct (withinB p tol a0 v0) eqn:Wa.
    { right. destruct (SIDE a0 v0 (length l) O row ltac:(now left) Wa Ha eq_refl eq_refl) as (out & w0 & x & y & E & He & Hnear & Hne & H1 & H2 & H3 & H4 & H5 & H6 & H7 & H8 & H9 & H10).
      replace (zlen poly - 1)%Z with (Z.of_nat (length l)) in EQ by (unfold zlen, poly; cbn [length]; lia).
      change (Z.of_nat 0) with 0%Z in E. rewrite E in EQ.
      exists out, a0, v0, (length l), O, w0, x, y.
      repeat (split; [first [assumption|reflexivity]|]). assumption. }
    assert (HWD : (exists u v, In (u, v) (bchain v0 cs) /\ withinB p tol u v = true) \/ (forall u v, In (u, v) (bchain v0 cs) -> withinB p tol u v = false)).
    { clear. induction (bchain v0 cs) as [|[u v] es [IH|IH]].
      - right. intros u v [].
      - left. destruct IH as (u' & v' & H & Hw). exists u', v'. split; [now right|auto].
      - destruct (withinB p tol u v) eqn:H.
        + left. exists u, v. split; [now left|auto].
        + right. intros u' v' [E|E]; [now inversion E; subst|auto]. }
    destruct HWD as [HE|HA].
    - (* a later side *)
      right. destruct (loopB_edge p tol poly (zlen poly) cs 0%Z a0 v0 row (nofZ 0)) as (ws' & j & u & v & E & L & Hj & Hnj & Hw); auto.
      + lia.
      + unfold zlen. lia.
      + intros j c Hj. now apply next_vertexB.
      + apply all_quots.
      + rewrite Z.sub_0_r in Hnj. pose proof (nth_error_In _ _ Hnj) as Hin. apply bchain_nth in Hnj. destruct Hnj as (Hu & Hv).
        assert (Hu' : nth_error poly (Z.to_nat j) = Some u).
        { change (v0 :: cs) with (poly ++ [v0]) in Hu. rewrite nth_error_app1 in Hu; auto. unfold zlen in Hj. rewrite Hlc in Hj. lia. }
        assert (Hv' : aget poly ((j + 1) mod zlen poly)%Z = Ok v).
        { apply next_vertexB in Hv. rewrite Z2Nat.id in Hv by lia. exact Hv. }
        assert (Hb : (0 <= (j + 1) mod zlen poly < zlen poly)%Z) by (apply Z.mod_pos_bound; unfold zlen, poly; cbn [length]; lia).
        destruct (aget_ok_pos poly ((j + 1) mod zlen poly)%Z Hb) as (v' & Ev & Hv2).
        rewrite Hv' in Ev. inversion Ev; subst v'.
        destruct (SIDE u v (Z.to_nat j) (Z.to_nat ((j + 1) mod zlen poly)) ws' ltac:(now right) Hw Hu' Hv2 L) as (out & w0 & x & y & EO & He & Hnear & Hne & H1 & H2 & H3 & H4 & H5 & H6 & H7 & H8 & H9 & H10).
        rewrite !Z2Nat.id in EO by lia. 
        exists out, u, v, (Z.to_nat j), (Z.to_nat ((j + 1) mod zlen poly)), w0, x, y. rewrite E, EO in EQ. cbn [bind] in EQ.
        repeat (split; [first [assumption|reflexivity]|]). assumption.
    - (* away from all sides *)
      left. assert (HG : forall u v, In (u, v) ((a0, v0) :: bchain v0 cs) -> withinB p tol u v = false) by (intros u v [E|E]; [inversion E; subst; auto|auto]).
      assert (HGA : forall u v, In (u, v) ((a0, v0) :: bchain v0 cs) -> goodA k W D (areaB u v p) (Rabs (orient (rp u) (rp v) (rp p)))).
      { intros u v H. pose proof (loop_pair u v H) as (Iu & Iv & He). destruct (side_facts u v Iu Iv He) as (_ & G & _). apply G, HG, H. }
      pose proof (vals cs a0 v0 HGA triple_good) as HV.
      (* every side of the exact polygon *)
      assert (HR : forall u v, In (u, v) (poly_edges (map rp poly)) -> exists u' v', u = rp u' /\ v = rp v' /\ In (u', v') ((a0, v0) :: bchain v0 cs)).
      { intros u v H. unfold poly in H. cbn [map] in H. apply rot_edges in H.
        replace (last (map rp l) (rp v0)) with (rp a0) in H.
        2:{ unfold a0. clear. revert v0. induction l as [|x r IH]; intros y; auto. cbn [map]. rewrite (last_cons r x y), (last_cons (map rp r) (rp x) (rp y)). apply IH. }
        destruct H as [H|H]; [inversion H; subst; exists a0, v0; repeat split; now left|].
        change (map rp l ++ [rp v0]) with (map rp l ++ map rp [v0]) in H. rewrite <- map_app in H. fold cs in H. rewrite <- bchain_map in H.
        apply in_map_iff in H as ((u' & v') & E & Hin). inversion E; subst. exists u', v'. repeat split. now right. }
      assert (HO : forall u v, In (u, v) (poly_edges (map rp poly)) -> orient u v (rp p) <> 0).
      { intros u v H. destruct (HR u v H) as (u' & v' & -> & -> & Hin). destruct (HGA u' v' Hin) as (_ & _ & G & _).
        intros X. rewrite X, Rabs_R0 in G. lra. }
      set (W0 := wts (rp p) (rp a0) (rp v0) (map rp cs)) in *. set (WB := wtsB p a0 v0 cs) in *.
      assert (EW0 : W0 = wts (rp p) (last (map rp l) (rp v0)) (rp v0) (map rp l ++ [rp v0])).
      { unfold W0, cs. rewrite map_app. f_equal. unfold a0. clear. revert v0. induction l as [|x r IH]; intros y; auto. cbn [map]. rewrite (last_cons r x y), (last_cons (map rp r) (rp x) (rp y)). apply IH. }
      set (lo := D / (2 * (W * W) * (W * W))) in *. set (hi := 4 * (W * W) / (D * D)) in *.
      pose proof (low_abs W D HW HD) as Llo. pose proof (high_abs W D HW HD) as Lhi. fold lo in Llo. fold hi in Lhi.
      pose proof (bpow_gt_0 radix2 (-550)) as P550.
      assert (LW : zlen WB = zlen poly) by (unfold WB, zlen; rewrite wtsB_length, Hlc; reflexivity).
      assert (LW0 : zlen W0 = zlen poly) by (unfold W0, zlen; rewrite wts_length, map_length, Hlc; reflexivity).
      set (n := IZR (zlen poly)) in *.
      assert (Hn1 : 1 <= n <= bpow radix2 40).
      { unfold n. split; [apply IZR_le; unfold zlen, poly; cbn [length]; lia|]. change (bpow radix2 40) with (IZR (2 ^ 40)). now apply IZR_le. }
      pose proof uro_pos as Pu.
      assert (Hnu : 0 <= n * uro <= / 1000).
      { split; [apply Rmult_le_pos; lra|]. apply Rle_trans with (bpow radix2 40 * uro); [apply Rmult_le_compat_r; lra|].
        unfold uro. rewrite <- bpow_plus. apply Rle_trans with (bpow radix2 (-10)); [apply bpow_le; lia|]. change (bpow radix2 (-10)) with (/ 1024). lra. }
      assert (Hhi : sumR W0 <= n * hi).
      { unfold n. rewrite <- LW0. apply sumR_le. apply Forall_forall. intros x Hx. apply In_nth_error in Hx as (i & Hi).
        destruct (Forall2_nth_r _ _ _ _ _ HV Hi) as (w & _ & _ & H & _). lra. }
      assert (HF0 : Forall (fun w => lo <= w) W0).
      { apply Forall_forall. intros x Hx. apply In_nth_error in Hx as (i & Hi). destruct (Forall2_nth_r _ _ _ _ _ HV Hi) as (w & _ & _ & H & _). lra. }
      assert (HS0 : 0 < sumR W0).
      { apply sumR_pos; [intros X; rewrite X in LW0; unfold zlen, poly in LW0; cbn in LW0; lia|]. eapply Forall_impl; [|exact HF0]. cbv beta. intros; lra. }
      pose proof (q_small W D HW HD) as (Pq & Hq). fold S in Pq, Hq.
      assert (Phi : 0 < hi).
      { unfold hi. apply Rdiv_lt_0_compat; [|now apply Rmult_lt_0_compat]. pose proof (W_pos W HW). assert (0 < W * W) by now apply Rmult_lt_0_compat. lra. }
      destruct (sum_rel W D WB W0 (Zb 0) 0 (33 * (S / D))) as (Fs & Rs).
      { eapply Forall2_imp; [|exact HV]. cbv beta. intros w w0 (A & B & C). split; auto. split; [lra|exact C]. }
      { reflexivity. }
      { lra. }
      { rewrite (proj2 (Zb_exact 0 ltac:(lia))). unfold rel. rewrite Rminus_0_r, Rabs_R0. lra. }
      { fold S. lra. }
      { rewrite LW. fold n. lra. }
      { rewrite Rplus_0_l. apply Rle_trans with (n * hi); auto. apply Rle_trans with (bpow radix2 40 * bpow radix2 490); [apply Rmult_le_compat; lra|].
        rewrite <- bpow_plus. apply bpow_le. lia. }
      rewrite Rplus_0_l, LW in Rs. fold n in Rs. set (s := fold_left nadd WB (Zb 0)) in *.
      assert (HD2 : D <= 2 * (W * W)).
      { destruct (HGA a0 v0 ltac:(now left)) as (_ & _ & G1 & G2). lra. }
      assert (Hratio : forall w0, lo <= w0 -> bpow radix2 (-900) <= w0 / sumR W0).
      { intros w0 H0. apply Rmult_le_reg_r with (sumR W0); auto. unfold Rdiv. rewrite Rmult_assoc, Rinv_l, Rmult_1_r by lra.
        apply Rle_trans with (bpow radix2 (-900) * (bpow radix2 40 * hi)).
        - apply Rmult_le_compat_l; [apply bpow_ge_0|]. eapply Rle_trans; [exact Hhi|]. apply Rmult_le_compat_r; lra.
        - eapply Rle_trans; [|exact H0]. unfold lo, hi. pose proof (D_low W D HW HD) as LD. pose proof (WW_low W HW) as LW2.
          pose proof (bpow_gt_0 radix2 (-400)). set (w := W * W) in *.
          assert (P1 : 0 < D * D) by now apply Rmult_lt_0_compat. assert (P2 : 0 < 2 * w * w) by (apply Rmult_lt_0_compat; lra).
          apply Rmult_le_reg_r with (2 * w * w * (D * D)); [now apply Rmult_lt_0_compat|].
          replace (bpow radix2 (-900) * (bpow radix2 40 * (4 * w / (D * D))) * (2 * w * w * (D * D))) with (8 * bpow radix2 (-900) * bpow radix2 40 * (w * w * w)) by (field; lra).
          replace (D / (2 * w * w) * (2 * w * w * (D * D))) with (D * D * D) by (field; lra).
          pose proof (bpow_gt_0 radix2 (-44)) as P44. set (b := bpow radix2 (-44)) in *.
          assert (P3 : 0 <= b * w) by (apply Rmult_le_pos; lra).
          assert (H1 : b * w * (b * w) <= D * D) by (apply Rmult_le_compat; lra).
          assert (H2 : b * w * (b * w) * (b * w) <= D * D * D) by (apply Rmult_le_compat; auto; apply Rmult_le_pos; auto).
          eapply Rle_trans; [|exact H2]. replace (b * w * (b * w) * (b * w)) with (b * b * b * (w * w * w)) by ring.
          apply Rmult_le_compat_r; [apply Rmult_le_pos; [apply Rmult_le_pos|]; lra|]. unfold b. change 8 with (bpow radix2 3).
          rewrite <- !bpow_plus. apply bpow_le. lia. }
      assert (HNorm : Forall2 (fun w w0 => (ndiv w s = Ok (ndivraw w s)) /\ is_finite (ndivraw w s) = true /\ 0 < w0 / sumR W0 /\ rel (72 * (S / D) + 2 * (n * uro)) (B2R (ndivraw w s)) (w0 / sumR W0)) WB W0).
      { assert (HIn : Forall2 (fun w w0 => In w0 W0 /\ is_finite w = true /\ lo <= w0 <= hi /\ rel (33 * (S / D)) (B2R w) w0) WB W0).
        { clear - HV. assert (G : forall A B (P : A -> B -> Prop) x y, Forall2 P x y -> Forall2 (fun a b => In b y /\ P a b) x y).
          { clear. intros A B P x y H. induction H as [|a b x y HP HF IH]; constructor; [split; [now left|auto]|].
            eapply Forall2_imp; [|exact IH]. cbv beta. intros c d (H1 & H2). split; [now right|auto]. }
          apply G in HV. exact HV. }
        eapply Forall2_imp; [|exact HIn]. cbv beta. intros w w0 (Hin & Fw & Hw0 & Rw).
        assert (Hle : w0 <= sumR W0) by (apply sumR_ge_in; auto; eapply Forall_impl; [|exact HF0]; cbv beta; intros; lra).
        destruct (norm_rel W D HW HD w s w0 (sumR W0) n Fw Fs) as (A & (B & _) & C); auto; try lra; [apply Hratio; lra|].
        split; auto. split; auto. split; [apply Rdiv_lt_0_compat; lra|exact C]. }
      exists (map (fun w => ndivraw w s) WB), (map (fun w => w / sumR W0) W0).
      split.
      { rewrite EQ. rewrite <- Hlc at 1. rewrite <- (firstn_skipn (length cs) row) at 1.
        change (firstn (length cs) row ++ skipn (length cs) row) with ([] ++ firstn (length cs) row ++ skipn (length cs) row).
        rewrite (loopB_plain p tol poly (zlen poly) cs 0%Z a0 v0 [] (firstn (length cs) row) (skipn (length cs) row) (nofZ 0)); auto.
        - cbn [bind app]. unfold for_range. fold WB. change (fold_left nadd WB (nofZ 0)) with s. rewrite Z.sub_0_r. unfold zlen at 1. rewrite Nat2Z.id.
          change (WB ++ skipn (length cs) row) with ([] ++ WB ++ skipn (length cs) row).
          rewrite (normaliseB_loop s WB [] (skipn (length cs) row) 0%Z (length poly)); auto.
          + unfold zlen in LW. lia.
          + apply Forall_forall. intros x Hx. apply In_nth_error in Hx as (i & Hi).
            destruct (PApi.Forall2_nth_l _ _ _ _ _ HNorm Hi) as (w0 & _ & G & _). exact G.
        - intros j c Hj. now apply next_vertexB.
        - rewrite firstn_length. lia.
        - apply all_quots. }
      split.
      { intros u v H. destruct (HR u v H) as (u' & v' & -> & -> & Hin). pose proof (loop_pair u' v' Hin) as (Iu & Iv & He).
        destruct (side_facts u' v' Iu Iv He) as (_ & G & _). apply G, HG, Hin. }
      split; [rewrite EW0; apply wts_wachspress; auto; rewrite <- EW0; exact HS0|].
      split.
      { eapply Forall2_maps; [|exact HNorm]. cbv beta. intros w w0 (_ & A & B & C). auto. }
      intros HCv Hh. destruct HC as (_ & _ & _ & HT & _).
      destruct (hull_signs (map rp poly) (rp p) D PD HCv Hh HT HO) as (sg & Hsg).
      rewrite EW0. apply (wts_comb (rp p) sg (rp v0) (map rp l) Hsg). rewrite <- EW0. lra.
  Qed.
End Poly.
