(** Point in triangle in binary64. *)
From Coq Require Import Reals Lra Psatz.
From Flocq Require Import IEEE754.BinarySingleNaN Core.
From Verif Require Import RBase NumB64 NumRoom FBase FBuild MUtils MGeometry FPoint FLines SpecGeom SpecPoly GTriangle.
Open Scope R_scope.

Lemma Rlt_bool_true_iff x y : Rlt_bool x y = true -> x < y.
Proof. case Rlt_bool_spec; auto. discriminate. Qed.
Lemma Rlt_bool_false_iff x y : Rlt_bool x y = false -> y <= x.
Proof. case Rlt_bool_spec; auto. discriminate. Qed.

(** ** From a point of a triangle to its boundary *)
Lemma lin_orient u v p q t : orient u v (at_ p q t) = orient u v p + t * (orient u v q - orient u v p).
Proof. unfold orient, at_. cbn [px py]. ring. Qed.
Lemma orient_cycle a b c : orient b c a = orient a b c.
Proof. unfold orient. ring. Qed.

(** a point of a triangle on the line of a side is on the side *)
Lemma on_side a b c q : 0 < orient a b c -> orient a b q = 0 -> 0 <= orient b c q -> 0 <= orient c a q -> on_segment a b q.
Proof.
  intros H E1 H2 H3. pose proof (orient_sum a b c q) as S. rewrite E1 in S. set (D := orient a b c) in *.
  exists (orient c a q / D). split.
  - split; [apply Rmult_le_pos; auto; left; now apply Rinv_0_lt_compat|].
    apply (Rmult_le_reg_r D); auto. unfold Rdiv. rewrite Rmult_assoc, Rinv_l by lra. lra.
  - assert (X : px q * D = px a * D + orient c a q * (px b - px a) + orient a b q * (px c - px a)) by (unfold D, orient; ring).
    assert (Y : py q * D = py a * D + orient c a q * (py b - py a) + orient a b q * (py c - py a)) by (unfold D, orient; ring).
    rewrite E1 in X, Y. apply pt_eq; unfold at_; cbn [px py]; apply (Rmult_eq_reg_r D); try lra;
      [rewrite X|rewrite Y]; unfold Rdiv; ring_simplify; field; lra.
Qed.

Lemma dist_part p q t r : 0 <= t <= 1 -> dist2 p q <= r * r -> dist2 p (at_ p q t) <= r * r.
Proof.
  intros Ht H. unfold dist2, at_ in *. cbn [px py] in *.
  replace (px p - (px p + t * (px q - px p))) with (- t * (px q - px p)) by ring.
  replace (py p - (py p + t * (py q - py p))) with (- t * (py q - py p)) by ring.
  assert (Z : forall x, (- t * x) * (- t * x) <= x * x).
  { intros x. assert (0 <= x * x) by apply Rle_0_sqr. assert (0 <= (1 - t * t) * (x * x)) by (apply Rmult_le_pos; auto; nra). lra. }
  pose proof (Z (px q - px p)). pose proof (Z (py q - py p)). lra.
Qed.

(** where a linear function comes down to zero *)
Lemma root f0 f1 : 0 <= f0 -> f1 < 0 -> exists t, 0 <= t <= 1 /\ f0 + t * (f1 - f0) = 0
  /\ forall s, 0 <= s <= t -> 0 <= f0 + s * (f1 - f0).
Proof.
  intros H0 H1. exists (f0 / (f0 - f1)). assert (P : 0 < f0 - f1) by lra.
  assert (E : f0 / (f0 - f1) * (f0 - f1) = f0) by (field; lra).
  assert (T : 0 <= f0 / (f0 - f1) <= 1).
  { split; [apply Rmult_le_pos; auto; left; now apply Rinv_0_lt_compat|]. apply (Rmult_le_reg_r (f0 - f1)); lra. }
  split; auto. split; [lra|]. intros s Hs. assert (s * (f0 - f1) <= f0 / (f0 - f1) * (f0 - f1)) by (apply Rmult_le_compat_r; lra). lra.
Qed.

(** a point near the line of a side is near some side *)
Lemma line_to_side r a b c p : 0 < orient a b c -> 0 <= orient a b p -> 0 <= orient b c p -> 0 <= orient c a p -> 0 <= r ->
  orient a b p * orient a b p <= r * r * dist2 a b ->
  near_segment r a b p \/ near_segment r b c p \/ near_segment r c a p.
Proof.
  intros HD H1 H2 H3 Hr H. set (L := dist2 a b) in *.
  assert (PL : 0 < L).
  { unfold L, dist2. apply Rnot_le_lt. intros Hc. pose proof (Rle_0_sqr (px a - px b)) as X. pose proof (Rle_0_sqr (py a - py b)) as Y. unfold Rsqr in X, Y.
    assert (px a - px b = 0) by nra. assert (py a - py b = 0) by nra. unfold orient in HD.
    replace (px b - px a) with 0 in HD by lra. replace (py b - py a) with 0 in HD by lra. lra. }
  (* the foot of the perpendicular *)
  set (h := orient a b p) in *.
  set (q := Pt (px p + h / L * (py b - py a)) (py p - h / L * (px b - px a))).
  assert (EQ : orient a b q = 0).
  { unfold q, orient. cbn [px py].
    replace ((px b - px a) * (py p - h / L * (px b - px a) - py a) - (py b - py a) * (px p + h / L * (py b - py a) - px a))
      with (h - h / L * L) by (unfold h, L, orient, dist2; ring). field. lra. }
  assert (DQ : dist2 p q <= r * r).
  { unfold q, dist2. cbn [px py].
    replace (_ + _) with (h * h / (L * L) * L) by (unfold L, dist2; field; fold (dist2 a b); fold L; lra).
    replace (h * h / (L * L) * L) with (h * h / L) by (field; lra).
    apply (Rmult_le_reg_r L); auto. unfold Rdiv. rewrite Rmult_assoc, Rinv_l by lra. lra. }
  (* walk from p to q *)
  assert (HA : forall t, 0 <= t <= 1 -> 0 <= orient a b (at_ p q t)).
  { intros t Ht. rewrite lin_orient, EQ. fold h. assert (0 <= (1 - t) * h) by (apply Rmult_le_pos; lra). lra. }
  assert (near : forall t u v, 0 <= t <= 1 -> on_segment u v (at_ p q t) -> near_segment r u v p).
  { intros t u v Ht Ho. exists (at_ p q t). split; auto. now apply dist_part. }
  assert (E1 : at_ p q 1 = q) by (apply pt_eq; unfold at_; cbn [px py]; ring).
  assert (bc : forall t, 0 <= t <= 1 -> orient b c (at_ p q t) = 0 -> 0 <= orient c a (at_ p q t) -> near_segment r b c p).
  { intros t Ht Z W. apply (near t); auto. apply (on_side b c a); auto. now rewrite orient_cycle. }
  assert (ca : forall t, 0 <= t <= 1 -> orient c a (at_ p q t) = 0 -> 0 <= orient b c (at_ p q t) -> near_segment r c a p).
  { intros t Ht Z W. apply (near t); auto. apply (on_side c a b); auto. now rewrite <- orient_cycle. }
  destruct (Rlt_dec (orient b c q) 0) as [N2|N2].
  - destruct (root _ _ H2 N2) as (t & Ht & Et & Bt). rewrite <- lin_orient in Et.
    destruct (Rlt_dec (orient c a (at_ p q t)) 0) as [N3|N3].
    + right; right. destruct (Rlt_dec (orient c a q) 0) as [N4|N4].
      * destruct (root _ _ H3 N4) as (s & Hs & Es & Bs). rewrite <- lin_orient in Es.
        assert (s <= t). { apply Rnot_lt_le. intros Hc. specialize (Bs t ltac:(lra)). rewrite <- lin_orient in Bs. lra. }
        apply (ca s); auto. rewrite lin_orient. apply Bt. lra.
      * exfalso. rewrite lin_orient in N3. assert (0 <= (1 - t) * orient c a p) by (apply Rmult_le_pos; lra).
        assert (0 <= t * orient c a q) by (apply Rmult_le_pos; lra). lra.
    + right; left. apply (bc t); auto. lra.
  - destruct (Rlt_dec (orient c a q) 0) as [N3|N3].
    + right; right. destruct (root _ _ H3 N3) as (t & Ht & Et & _). rewrite <- lin_orient in Et. apply (ca t); auto.
      rewrite lin_orient. assert (0 <= (1 - t) * orient b c p) by (apply Rmult_le_pos; lra).
      assert (0 <= t * orient b c q) by (apply Rmult_le_pos; lra). lra.
    + left. apply (near 1); [lra|]. rewrite E1. apply (on_side a b c); auto; lra.
Qed.

Lemma near_swap r u v p : near_segment r u v p -> near_segment r v u p.
Proof.
  intros (q & (t & Ht & ->) & H). exists (at_ u v t). split; auto. exists (1 - t). split; [lra|]. apply pt_eq; unfold at_; cbn [px py]; ring.
Qed.

(** the same for either orientation *)
Lemma triangle_line_to_side r a b c p : orient a b c <> 0 -> in_triangle a b c p -> 0 <= r ->
  orient a b p * orient a b p <= r * r * dist2 a b ->
  near_segment r a b p \/ near_segment r b c p \/ near_segment r c a p.
Proof.
  intros Hn Hi Hr H. destruct (Rlt_dec 0 (orient a b c)) as [P|P].
  - destruct (in_triangle_orient a b c p Hi 1) as (H1 & H2 & H3); [lra|]. apply line_to_side; auto; lra.
  - destruct (in_triangle_orient a b c p Hi (-1)) as (H1 & H2 & H3); [lra|].
    assert (E : forall u v w, orient v u w = - orient u v w) by (intros; unfold orient; ring).
    destruct (line_to_side r b a c p) as [N|[N|N]]; auto.
    + rewrite E. lra. + rewrite E. lra. + rewrite E. lra. + rewrite E. lra.
    + rewrite E. replace (dist2 b a) with (dist2 a b) by (unfold dist2; ring). lra.
    + left. now apply near_swap. + right; right. now apply near_swap. + right; left. now apply near_swap.
Qed.

Section Tri.
  Context (k : Z) (Hk : (-150 <= k <= 250)%Z).
  Let M := bpow radix2 k.
  Let m := uro * M.

  (** the computed cross product and the exact one *)
  Lemma cross_side u v p : bpt k u -> bpt k v -> bpt k p -> side_ok (rp u) (rp v) ->
    let A := cross_product (to_vector u v) (to_vector u p) in
    bounded (2 * k + 3) A /\ Rabs (B2R A - orient (rp u) (rp v) (rp p)) <= 8.5 * m * len1 (rp u) (rp v).
  Proof.
    intros Bu Bv Bp Hs A. destruct (cross_err k Hk u v p Bu Bv Bp) as (BA & HA). split; auto. cbv zeta in HA. fold A in HA.
    unfold orient, rp. cbn [px py]. eapply Rle_trans; [exact HA|]. clear HA.
    pose proof uro_pos. pose proof eta_pos. pose proof (m_pos' k) as Pm. fold M in Pm. fold m in Pm.
    destruct Bu as (Ux & Uy), Bp as (Px & Py).
    pose proof (diff_bound k (px p) (px u) Px Ux) as D1. pose proof (diff_bound k (py p) (py u) Py Uy) as D2. fold M in D1, D2.
    set (dx := B2R (px v) - B2R (px u)) in *. set (dy := B2R (py v) - B2R (py u)) in *.
    assert (S : Rabs (dx * (B2R (py p) - B2R (py u))) + Rabs (dy * (B2R (px p) - B2R (px u))) <= 2 * M * (Rabs dx + Rabs dy)).
    { rewrite !Rabs_mult. pose proof (Rmult_le_compat_l (Rabs dx) _ _ (Rabs_pos dx) D2).
      pose proof (Rmult_le_compat_l (Rabs dy) _ _ (Rabs_pos dy) D1). lra. }
    assert (S2 : 4.1 * uro * (Rabs (dx * (B2R (py p) - B2R (py u))) + Rabs (dy * (B2R (px p) - B2R (px u)))) <= 8.2 * (m * (Rabs dx + Rabs dy))).
    { apply Rle_trans with (4.1 * uro * (2 * M * (Rabs dx + Rabs dy))); [apply Rmult_le_compat_l; lra|]. unfold m. lra. }
    assert (L : bpow radix2 (-250) <= Rabs dx + Rabs dy).
    { pose proof (Rabs_pos dx). pose proof (Rabs_pos dy). unfold side_ok, rp in Hs. cbn [px py] in Hs. fold dx dy in Hs. destruct Hs as [Hs|(_ & Hs)]; lra. }
    assert (K : 3 * eta <= 0.3 * (m * (Rabs dx + Rabs dy))).
    { apply Rle_trans with (0.3 * (m * bpow radix2 (-250))).
      - pose proof (m_eq' k) as Em. fold M in Em. fold m in Em. rewrite Em. apply Rle_trans with (0.3 * (bpow radix2 10 * eta)); [change (bpow radix2 10) with 1024; lra|].
        apply Rmult_le_compat_l; [lra|]. unfold eta. rewrite <- !bpow_plus. apply bpow_le. lia.
      - apply Rmult_le_compat_l; [lra|]. apply Rmult_le_compat_l; lra. }
    unfold len1. cbn [px py]. fold dx dy. lra.
  Qed.

  Lemma len1_dist u v : len1 u v * len1 u v <= 2 * dist2 u v.
  Proof.
    unfold len1, dist2. set (x := px v - px u). set (y := py v - py u).
    replace (px u - px v) with (- x) by (unfold x; ring). replace (py u - py v) with (- y) by (unfold y; ring).
    assert (Z : forall t, Rabs t * Rabs t = t * t) by (intros t; rewrite <- Rabs_mult; apply Rabs_pos_eq, Rle_0_sqr).
    pose proof (Z x). pose proof (Z y). pose proof (Rle_0_sqr (Rabs x - Rabs y)) as Q. unfold Rsqr in Q. lra.
  Qed.
  Lemma len1_pos u v : 0 <= len1 u v.
  Proof. unfold len1. pose proof (Rabs_pos (px v - px u)). pose proof (Rabs_pos (py v - py u)). lra. Qed.

  Lemma m_pos3 : 0 < m. Proof. exact (m_pos' k). Qed.
  Lemma m16' : bpow radix2 (k - 49) = 16 * m.
  Proof. pose proof (m_eq' k) as E. fold M in E. fold m in E. rewrite E. replace (k - 49)%Z with (4 + (k - 53))%Z by lia. rewrite bpow_plus. reflexivity. Qed.
  Lemma m64' : bpow radix2 (k - 47) = 64 * m.
  Proof. pose proof (m_eq' k) as E. fold M in E. fold m in E. rewrite E. replace (k - 47)%Z with (6 + (k - 53))%Z by lia. rewrite bpow_plus. reflexivity. Qed.

  (** ** Inside, away from the sides *)
  Definition clear_of (u v p : pt) : Prop := 9 * m * len1 u v < Rabs (orient u v p).

  Lemma clear_sign u v p : bpt k u -> bpt k v -> bpt k p -> side_ok (rp u) (rp v) -> clear_of (rp u) (rp v) (rp p) ->
    nltb (nofZ 0) (cross_product (to_vector u v) (to_vector u p)) = Rlt_bool 0 (orient (rp u) (rp v) (rp p)).
  Proof.
    intros Bu Bv Bp Hs Hc. destruct (cross_side u v p Bu Bv Bp Hs) as ((F & _) & E). cbv zeta in E.
    rewrite nltb_B by auto. change (B2R (nofZ 0 : b64)) with 0. unfold clear_of in Hc.
    pose proof (len1_pos (rp u) (rp v)) as PL. pose proof m_pos3 as Pm.
    assert (0 <= m * len1 (rp u) (rp v)) by (apply Rmult_le_pos; lra).
    apply Rabs_le_iff in E. set (C := orient (rp u) (rp v) (rp p)) in *. set (A := B2R _) in *.
    unfold Rabs in Hc. destruct (Rcase_abs C).
    - rewrite !Rlt_bool_false; auto; lra.
    - rewrite !Rlt_bool_true; auto; lra.
  Qed.

  Lemma clear_inside a b c p tol : bpt k a -> bpt k b -> bpt k c -> bpt k p ->
    side_ok (rp a) (rp b) -> side_ok (rp b) (rp c) -> side_ok (rp c) (rp a) -> orient (rp a) (rp b) (rp c) <> 0 ->
    in_triangle (rp a) (rp b) (rp c) (rp p) ->
    clear_of (rp a) (rp b) (rp p) -> clear_of (rp b) (rp c) (rp p) -> clear_of (rp c) (rp a) (rp p) ->
    point_in_triangle p a b c tol = true.
  Proof.
    intros Ba Bb Bc Bp S1 S2 S3 Hn Hi C1 C2 C3. unfold point_in_triangle. cbv zeta.
    rewrite (clear_sign a b p), (clear_sign b c p), (clear_sign c a p) by auto.
    assert (H : Rlt_bool 0 (orient (rp a) (rp b) (rp p)) = Rlt_bool 0 (orient (rp b) (rp c) (rp p))
              /\ Rlt_bool 0 (orient (rp b) (rp c) (rp p)) = Rlt_bool 0 (orient (rp c) (rp a) (rp p))).
    { assert (Z : forall u v, clear_of u v (rp p) -> orient u v (rp p) <> 0).
      { intros u v Hc E. unfold clear_of in Hc. rewrite E, Rabs_R0 in Hc. pose proof (len1_pos u v). pose proof m_pos3.
        assert (0 <= m * len1 u v) by (apply Rmult_le_pos; lra). lra. }
      apply Z in C1, C2, C3. destruct (Rtotal_order (orient (rp a) (rp b) (rp c)) 0) as [Hs|[Hs|Hs]]; [|lra|].
      - destruct (in_triangle_orient _ _ _ _ Hi (-1)) as (H1 & H2 & H3); [lra|]. rewrite !Rlt_bool_false by lra. auto.
      - destruct (in_triangle_orient _ _ _ _ Hi 1) as (H1 & H2 & H3); [lra|]. rewrite !Rlt_bool_true by lra. auto. }
    destruct H as (-> & ->). rewrite !eqb_reflx. reflexivity.
  Qed.

  (** not clear of a line: near a side *)
  Lemma unclear_near a b c p : orient a b c <> 0 -> in_triangle a b c p -> ~ clear_of a b p ->
    near_segment (bpow radix2 (k - 49)) a b p \/ near_segment (bpow radix2 (k - 49)) b c p \/ near_segment (bpow radix2 (k - 49)) c a p.
  Proof.
    intros Hn Hi Hc. pose proof m_pos3 as Pm. rewrite m16'. apply triangle_line_to_side; auto; [lra|].
    unfold clear_of in Hc. apply Rnot_lt_le in Hc.
    pose proof (len1_dist a b) as HL. pose proof (len1_pos a b) as PL.
    set (C := orient a b p) in *. replace (C * C) with (Rabs C * Rabs C) by (rewrite <- Rabs_mult; apply Rabs_pos_eq, Rle_0_sqr).
    apply Rle_trans with (9 * m * len1 a b * (9 * m * len1 a b)); [apply Rmult_le_compat; auto using Rabs_pos|].
    assert (Pmm : 0 <= m * m) by (apply Rmult_le_pos; lra).
    assert (m * m * (len1 a b * len1 a b) <= m * m * (2 * dist2 a b)) by (apply Rmult_le_compat_l; auto).
    assert (0 <= m * m * dist2 a b) by (apply Rmult_le_pos; auto; unfold dist2; pose proof (Rle_0_sqr (px a - px b)); pose proof (Rle_0_sqr (py a - py b)); unfold Rsqr in *; lra).
    lra.
  Qed.

  Lemma clear_dec u v p : clear_of u v p \/ ~ clear_of u v p.
  Proof. unfold clear_of. destruct (Rlt_dec (9 * m * len1 u v) (Rabs (orient u v p))); auto. Qed.
  Lemma in_triangle_cycle a b c p : in_triangle a b c p -> in_triangle b c a p.
  Proof. intros (u & v & w & Hu & Hv & Hw & E & Ex & Ey). exists v, w, u. repeat split; auto; lra. Qed.

  Definition near_sides (r : R) (a b c p : pt) : Prop := near_segment r a b p \/ near_segment r b c p \/ near_segment r c a p.

  Lemma inside_or_near a b c p : orient a b c <> 0 -> in_triangle a b c p ->
    (clear_of a b p /\ clear_of b c p /\ clear_of c a p) \/ near_sides (bpow radix2 (k - 49)) a b c p.
  Proof.
    intros Hn Hi. assert (Hn2 : orient b c a <> 0) by now rewrite orient_cycle. assert (Hn3 : orient c a b <> 0) by now rewrite <- orient_cycle.
    pose proof (in_triangle_cycle _ _ _ _ Hi) as Hi2. pose proof (in_triangle_cycle _ _ _ _ Hi2) as Hi3. unfold near_sides.
    destruct (clear_dec a b p) as [C1|C1]; [|right; now apply unclear_near].
    destruct (clear_dec b c p) as [C2|C2]; [|right; destruct (unclear_near b c a p Hn2 Hi2 C2) as [|[|]]; auto].
    destruct (clear_dec c a p) as [C3|C3]; [|right; destruct (unclear_near c a b p Hn3 Hi3 C3) as [|[|]]; auto]. auto.
  Qed.

  (** ** Next to a side, with a tolerance *)
  Lemma near_side_true u v p tol : bpt k u -> bpt k v -> bpt k p -> side_ok (rp u) (rp v) -> bounded k tol -> 64 * m <= B2R tol ->
    near_segment (16 * m) (rp u) (rp v) (rp p) ->
    (64 * m) * (64 * m) < dist2 (rp p) (rp u) -> (64 * m) * (64 * m) < dist2 (rp p) (rp v) ->
    within_perpendicular_distance (cross_product (to_vector u v) (to_vector u p)) (to_vector u v) tol = true
    /\ in_bounds p u v = true.
  Proof.
    intros Bu Bv Bp Hs Bt Ht Hn Du Dv. destruct (near_complete k Hk p u v tol Bp Bu Bv Bt Ht Hn Du Dv) as (_ & HB). split; auto.
    destruct (cross_side u v p Bu Bv Bp Hs) as (BA & HA). cbv zeta in HA. pose proof m_pos3 as Pm.
    assert (HC : orient (rp u) (rp v) (rp p) * orient (rp u) (rp v) (rp p) <= 16 * m * (16 * m) * dist2 (rp u) (rp v)).
    { destruct Hn as (q & (s & Hs1 & ->) & Hd). set (U := rp u) in *. set (V := rp v) in *. set (P := rp p) in *.
      set (ex := px P - px (at_ U V s)). set (ey := py P - py (at_ U V s)).
      assert (E : orient U V P = (px V - px U) * ey - (py V - py U) * ex) by (unfold orient, ex, ey, at_; cbn [px py]; ring).
      change (dist2 P (at_ U V s)) with (ex * ex + ey * ey) in Hd. rewrite E.
      set (dx := px V - px U). set (dy := py V - py U). replace (dist2 U V) with (dx * dx + dy * dy) by (unfold dist2, dx, dy; ring).
      apply Rle_trans with ((ex * ex + ey * ey) * (dx * dx + dy * dy)).
      - pose proof (Rle_0_sqr (dx * ex + dy * ey)) as Z. unfold Rsqr in Z. lra.
      - apply Rmult_le_compat_r; auto. pose proof (Rle_0_sqr dx). pose proof (Rle_0_sqr dy). unfold Rsqr in *. lra. }
    pose proof (len1_dist (rp u) (rp v)) as HL. pose proof (len1_pos (rp u) (rp v)) as PL.
    set (A := cross_product (to_vector u v) (to_vector u p)) in *. set (C := orient (rp u) (rp v) (rp p)) in *. set (Q := dist2 (rp u) (rp v)) in *.
    set (l := len1 (rp u) (rp v)) in *.
    assert (PQ : 0 <= Q) by (unfold Q, dist2; pose proof (Rle_0_sqr (px (rp u) - px (rp v))); pose proof (Rle_0_sqr (py (rp u) - py (rp v))); unfold Rsqr in *; lra).
    (* the side is not short *)
    assert (HQ : m * m <= Q).
    { apply Rnot_lt_le. intros Hc. destruct Hn as (q & (s & Hs1 & ->) & Hd).
      assert (D : dist2 (rp p) (rp u) <= 2 * dist2 (rp p) (at_ (rp u) (rp v) s) + 2 * dist2 (at_ (rp u) (rp v) s) (rp u)).
      { unfold dist2, at_. cbn [px py]. match goal with |- ?x * ?x + ?y * ?y <= 2 * (?z * ?z + ?w * ?w) + 2 * (?t * ?t + ?r * ?r) =>
          pose proof (Rle_0_sqr (z - t)) as Z1; pose proof (Rle_0_sqr (w - r)) as Z2; unfold Rsqr in Z1, Z2;
          replace x with (z + t) by ring; replace y with (w + r) by ring end. lra. }
      assert (D2 : dist2 (at_ (rp u) (rp v) s) (rp u) <= m * m).
      { replace (dist2 (at_ (rp u) (rp v) s) (rp u)) with (dist2 (rp u) (at_ (rp u) (rp v) s)) by (unfold dist2; ring). apply dist_part; auto. fold Q. lra. }
      assert (0 < m * m) by (apply Rmult_lt_0_compat; auto). lra. }
    apply (wpd_true k Hk); auto.
    - fold m. replace (_ + _) with Q by (unfold Q, dist2, rp; cbn [px py]; ring). exact HQ.
    - fold m. replace ((B2R (px v) - B2R (px u)) * (B2R (px v) - B2R (px u)) + (B2R (py v) - B2R (py u)) * (B2R (py v) - B2R (py u))) with Q by (unfold Q, dist2, rp; cbn [px py]; ring).
      assert (G : B2R A * B2R A <= 2 * (C * C) + 2 * (8.5 * m * l * (8.5 * m * l))).
      { set (e := B2R A - C) in *. assert (e * e <= 8.5 * m * l * (8.5 * m * l)).
        { replace (e * e) with (Rabs e * Rabs e) by (rewrite <- Rabs_mult; apply Rabs_pos_eq, Rle_0_sqr). apply Rmult_le_compat; auto using Rabs_pos. }
        replace (B2R A) with (C + e) by (unfold e; ring). pose proof (Rle_0_sqr (C - e)) as Z. unfold Rsqr in Z. lra. }
      assert (m * m * (l * l) <= m * m * (2 * Q)) by (apply Rmult_le_compat_l; auto; apply Rmult_le_pos; lra).
      assert (0 <= m * m * Q) by (apply Rmult_le_pos; auto; apply Rmult_le_pos; lra). change (uro * bpow radix2 k) with m. lra.
  Qed.

  (** ** What a passing test means *)
  Lemma near_core2 px_ py_ ux uy vx vy A t : 0 <= t ->
    (ux <= px_ <= vx \/ vx <= px_ <= ux) ->     bpow radix2 (-251) <= Rabs (vx - ux) -> Rabs (vy - uy) <= 1.001 * Rabs (vx - ux) ->
    Rabs (A - ((ux - px_) * (vy - py_) - (uy - py_) * (vx - px_))) <= 17.1 * m * Rabs (vx - ux) ->
    A * A <= 1.001 * (t * t * ((vx - ux) * (vx - ux) + (vy - uy) * (vy - uy))) + 4 * (t * t * eta) + 2 * (t * eta) + 3 * eta ->
    exists s, 0 <= s <= 1 /\ px_ = ux + s * (vx - ux) /\ Rabs (py_ - (uy + s * (vy - uy))) <= 2 * t + 32 * m.
  Proof.
    intros Pt Hx Hd Hdy HA HA2. pose proof uro_small. pose proof uro_pos. pose proof eta_pos as Pe.
    pose proof m_pos3 as Pm.
    set (dx := vx - ux) in *. set (dy := vy - uy) in *. set (D := Rabs dx) in *.
    pose proof (bpow_gt_0 radix2 (-251)) as P251. assert (PD : 0 < D) by lra.
    assert (Hdx : dx <> 0) by (intros E; unfold D in PD; rewrite E, Rabs_R0 in PD; lra).
    exists ((px_ - ux) / dx).
    assert (Hs : 0 <= (px_ - ux) / dx <= 1).
    { assert (E : (px_ - ux) / dx * dx = px_ - ux) by (field; auto).
      unfold dx in *. destruct Hx as [Hx|Hx].
      - assert (0 < vx - ux) by lra. split; apply (Rmult_le_reg_r (vx - ux)); lra.
      - assert (0 < - (vx - ux)) by lra. split; apply (Rmult_le_reg_r (- (vx - ux))); try lra; rewrite Ropp_mult_distr_r_reverse, E; lra. }
    split; [exact Hs|]. split; [field; auto|].
    set (C := (ux - px_) * (vy - py_) - (uy - py_) * (vx - px_)) in *.
    assert (EC : (py_ - (uy + (px_ - ux) / dx * dy)) * dx = C).
    { unfold C, dy. replace vx with (ux + dx) by (unfold dx; ring). field. auto. }
    apply (Rmult_le_reg_r D); [auto|]. unfold D. rewrite <- Rabs_mult, EC. fold D.
    (* underflow *)
    assert (K1 : bpow radix2 (-500) <= D * (m / 1000)).
    { apply Rle_trans with (bpow radix2 (-251) * (m / 1000)).
      - pose proof (m_eq' k) as Em; fold M in Em; fold m in Em; rewrite Em; clear Em. apply Rle_trans with (bpow radix2 (-251) * bpow radix2 (-214)).
        + rewrite <- bpow_plus. apply bpow_le. lia.
        + apply Rmult_le_compat_l; [lra|]. apply Rle_trans with (bpow radix2 (k - 63)); [apply bpow_le; lia|].
          replace (k - 53)%Z with (10 + (k - 63))%Z by lia. rewrite (bpow_plus radix2 10).
          pose proof (bpow_gt_0 radix2 (k - 63)). change (bpow radix2 10) with 1024. lra.
      - apply Rmult_le_compat_r; lra. }
    assert (K2 : 1000 * eta <= bpow radix2 (-500) * bpow radix2 (-500)).
    { apply Rle_trans with (bpow radix2 10 * eta); [change (bpow radix2 10) with 1024; lra|].
      unfold eta. rewrite <- !bpow_plus. apply bpow_le. lia. }
    assert (K3 : 1000 * eta <= bpow radix2 (-500)).
    { eapply Rle_trans; [exact K2|]. rewrite <- bpow_plus. apply bpow_le. lia. }
    assert (K4 : 1000 * eta <= D * D).
    { eapply Rle_trans; [exact K2|]. apply Rmult_le_compat; try apply bpow_ge_0;
        (apply Rle_trans with (bpow radix2 (-251)); [apply bpow_le; lia|auto]). }
    set (w := bpow radix2 (-500)) in *. assert (Pw : 0 < w) by apply bpow_gt_0.
    (* the size of the computed cross product *)
    assert (HAb : Rabs A <= 1.9 * t * D + w).
    { apply Rabs_le_iff. assert (PtD : 0 <= t * D) by (apply Rmult_le_pos; lra).
      assert (HDD : dx * dx = D * D) by (unfold D; rewrite <- Rabs_mult, Rabs_pos_eq; auto; apply Rle_0_sqr).
      assert (Hdd : dy * dy <= 1.01 * (D * D)).
      { replace (dy * dy) with (Rabs dy * Rabs dy) by (rewrite <- Rabs_mult, Rabs_pos_eq; auto; apply Rle_0_sqr).
        apply Rle_trans with (1.001 * D * (1.001 * D)); [apply Rmult_le_compat; auto using Rabs_pos|].
        assert (0 <= D * D) by apply Rle_0_sqr. lra. }
      assert (PT : 0 <= t * t) by apply Rle_0_sqr.
      assert (Q1 : t * t * (dx * dx + dy * dy) <= t * t * (2.01 * (D * D))) by (apply Rmult_le_compat_l; lra).
      assert (Q2 : t * t * (1000 * eta) <= t * t * (D * D)) by (apply Rmult_le_compat_l; lra).
      assert (Q3 : 2 * t <= 1 + t * t) by (pose proof (Rle_0_sqr (1 - t)) as Z; unfold Rsqr in Z; lra).
      assert (Q4 : 2 * t * eta <= (1 + t * t) * eta) by (apply Rmult_le_compat_r; lra).
      assert (PtD2 : 0 <= t * D * w) by (apply Rmult_le_pos; lra).
      assert (HA3 : A * A <= (1.9 * t * D + w) * (1.9 * t * D + w)).
      { replace ((1.9 * t * D + w) * (1.9 * t * D + w)) with (3.61 * (t * t * (D * D)) + 3.8 * (t * D * w) + w * w) by lra.
        assert (0 <= t * t * eta) by (apply Rmult_le_pos; lra). assert (0 <= t * t * (D * D)) by (apply Rmult_le_pos; auto; apply Rle_0_sqr). lra. }
      assert (PB : 0 <= 1.9 * t * D + w) by lra.
      split; apply Rnot_lt_le; intros Hc; nra. }
    assert (HC : Rabs C <= Rabs A + 17.1 * m * D).
    { replace C with (A - (A - C)) by ring. eapply Rle_trans; [apply Rabs_triang|]. rewrite Rabs_Ropp. lra. }
    assert (0 <= t * D) by (apply Rmult_le_pos; lra). assert (0 < m * D) by (apply Rmult_lt_0_compat; lra).
    lra.
  Qed.

  Lemma near_sound2 u v p tol : bpt k u -> bpt k v -> bpt k p -> bounded k tol -> 0 <= B2R tol -> side_ok (rp u) (rp v) ->
    within_perpendicular_distance (cross_product (to_vector u v) (to_vector u p)) (to_vector u v) tol = true ->
    in_bounds p u v = true -> near_segment (2 * B2R tol + bpow radix2 (k - 48)) (rp u) (rp v) (rp p).
  Proof.
    intros Hu Hv Hp Bt Pt Hs Hw Hi.
    destruct (cross_side u v p Hu Hv Hp Hs) as (BA & HA). pose proof (wpd_bound k Hk _ tol u v Hu Hv BA Bt Pt Hw) as HA2. cbv zeta in HA, HA2.
    set (A := B2R (cross_product (to_vector u v) (to_vector u p))) in *.
    pose proof (in_bounds_B k Hk p u v Hp Hu Hv Hi) as HB. cbv zeta in HB.
    assert (E32 : bpow radix2 (k - 48) = 32 * m).
    { pose proof (m_eq' k) as Em. fold M in Em. fold m in Em. rewrite Em. replace (k - 48)%Z with (5 + (k - 53))%Z by lia. rewrite bpow_plus. reflexivity. }
    pose proof (bpow_gt_0 radix2 (-250)) as P250. pose proof m_pos3 as Pm.
    assert (E251 : bpow radix2 (-250) = 2 * bpow radix2 (-251)) by (change (-250)%Z with (1 + -251)%Z; rewrite bpow_plus; reflexivity).
    unfold side_ok in Hs. cbn [px py rp] in Hs. unfold len1, orient in HA. cbn [px py rp] in HA.
    pose proof (Rabs_pos (B2R (px v) - B2R (px u))) as Px0. pose proof (Rabs_pos (B2R (py v) - B2R (py u))) as Py0.
    rewrite E32. destruct HB as [(H1 & H2)|(H1 & H2)].
    - destruct (near_core2 (B2R (px p)) (B2R (py p)) (B2R (px u)) (B2R (py u)) (B2R (px v)) (B2R (py v)) A (B2R tol)) as (s & Hs1 & Ex & Ey); auto.
      + revert H2. unfold Rmin, Rmax. repeat destruct Rle_dec; lra.
      + destruct Hs as [Hs|(_ & Hs)]; lra.
      + match goal with |- Rabs ?x <= _ => match type of HA with Rabs ?y <= _ => replace x with y by ring end end.
        eapply Rle_trans; [exact HA|]. assert (m * Rabs (B2R (py v) - B2R (py u)) <= m * (1.001 * Rabs (B2R (px v) - B2R (px u)))) by (apply Rmult_le_compat_l; lra).
        assert (0 <= m * Rabs (B2R (px v) - B2R (px u))) by (apply Rmult_le_pos; lra). lra.
      + exists (at_ (rp u) (rp v) s). split; [exists s; auto|]. unfold dist2, at_, rp. cbn [px py].
        rewrite <- Ex. apply Rabs_le_iff in Ey. set (e := B2R (py p) - _) in *. nra.
    - destruct (near_core2 (B2R (py p)) (B2R (px p)) (B2R (py u)) (B2R (px u)) (B2R (py v)) (B2R (px v)) (- A) (B2R tol)) as (s & Hs1 & Ey & Ex); auto.
      + revert H2. unfold Rmin, Rmax. repeat destruct Rle_dec; lra.
      + destruct Hs as [Hs|(Hs & Hs')]; [lra|]. rewrite Hs in H1. replace (B2R (py u) - B2R (py u)) with 0 in H1 by ring. rewrite Rabs_R0 in H1. lra.
      + match goal with |- Rabs ?x <= _ => match type of HA with Rabs ?y <= _ => replace x with (- y) by ring end end. rewrite Rabs_Ropp.
        eapply Rle_trans; [exact HA|]. assert (m * Rabs (B2R (px v) - B2R (px u)) <= m * (1.001 * Rabs (B2R (py v) - B2R (py u)))) by (apply Rmult_le_compat_l; lra).
        assert (0 <= m * Rabs (B2R (py v) - B2R (py u))) by (apply Rmult_le_pos; lra). lra.
      + rewrite Rmult_opp_opp. clear - HA2. lra.
      + exists (at_ (rp u) (rp v) s). split; [exists s; auto|]. unfold dist2, at_, rp. cbn [px py].
        rewrite <- Ey. apply Rabs_le_iff in Ex. set (e := B2R (px p) - _) in *. nra.
  Qed.

  (** ** The three statements *)
  Lemma tri_inside a b c p tol : bpt k a -> bpt k b -> bpt k c -> bpt k p ->
    side_ok (rp a) (rp b) -> side_ok (rp b) (rp c) -> side_ok (rp c) (rp a) -> orient (rp a) (rp b) (rp c) <> 0 ->
    in_triangle (rp a) (rp b) (rp c) (rp p) -> ~ near_sides (bpow radix2 (k - 49)) (rp a) (rp b) (rp c) (rp p) ->
    point_in_triangle p a b c tol = true.
  Proof.
    intros Ba Bb Bc Bp S1 S2 S3 Hn Hi Hf. destruct (inside_or_near _ _ _ _ Hn Hi) as [(C1 & C2 & C3)|N]; [|tauto].
    now apply clear_inside.
  Qed.

  Lemma near_true p a b c tol : let cr u v := cross_product (to_vector u v) (to_vector u p) in
    (within_perpendicular_distance (cr a b) (to_vector a b) tol = true /\ in_bounds p a b = true)
    \/ (within_perpendicular_distance (cr b c) (to_vector b c) tol = true /\ in_bounds p b c = true)
    \/ (within_perpendicular_distance (cr c a) (to_vector c a) tol = true /\ in_bounds p c a = true) ->
    point_in_triangle p a b c tol = true.
  Proof.
    intros cr H. unfold point_in_triangle. cbv zeta. destruct (_ && _); auto. fold (cr a b) (cr b c) (cr c a).
    destruct H as [(-> & ->)|[(-> & ->)|(-> & ->)]]; cbn [andb]; rewrite ?orb_true_r; auto.
  Qed.

  Lemma tri_closed a b c p tol : bpt k a -> bpt k b -> bpt k c -> bpt k p ->
    side_ok (rp a) (rp b) -> side_ok (rp b) (rp c) -> side_ok (rp c) (rp a) -> orient (rp a) (rp b) (rp c) <> 0 ->
    bounded k tol -> bpow radix2 (k - 47) <= B2R tol -> in_triangle (rp a) (rp b) (rp c) (rp p) ->
    (forall q, In q [a; b; c] -> bpow radix2 (k - 47) * bpow radix2 (k - 47) < dist2 (rp p) (rp q)) ->
    point_in_triangle p a b c tol = true.
  Proof.
    intros Ba Bb Bc Bp S1 S2 S3 Hn Bt Ht Hi Hd. rewrite m64' in Ht. rewrite m64' in Hd.
    assert (Da := Hd a ltac:(cbn; auto)). assert (Db := Hd b ltac:(cbn; auto)). assert (Dc := Hd c ltac:(cbn; auto)).
    destruct (inside_or_near _ _ _ _ Hn Hi) as [(C1 & C2 & C3)|N]; [now apply clear_inside|].
    unfold near_sides in N. rewrite m16' in N. apply near_true. cbv zeta.
    destruct N as [N|[N|N]]; [left|right; left|right; right]; now apply near_side_true.
  Qed.

  (** the point is inside the half plane left of [u v] (right of it, for s = -1), or within r of it *)
  Definition near_half (r s : R) (u v p : pt) : Prop := exists q, 0 <= s * orient u v q /\ dist2 p q <= r * r.

  Lemma near_half_of s u v p : (s = 1 \/ s = -1) -> u <> v -> - (8.5 * m * len1 u v) <= s * orient u v p -> near_half (bpow radix2 (k - 49)) s u v p.
  Proof.
    intros Hs Hne H. rewrite m16'. pose proof m_pos3 as Pm. pose proof (len1_pos u v) as PL. pose proof (len1_dist u v) as HL. unfold near_half.
    destruct (Rle_dec 0 (s * orient u v p)) as [G|G].
    { exists p. split; auto. unfold dist2. assert (0 <= m * m) by (apply Rmult_le_pos; lra). lra. }
    set (h := orient u v p) in *. set (L := dist2 u v) in *.
    assert (PQ : 0 < L).
    { unfold L, dist2. apply Rnot_le_lt. intros Hc. pose proof (Rle_0_sqr (px u - px v)) as X. pose proof (Rle_0_sqr (py u - py v)) as Y. unfold Rsqr in X, Y.
      apply Hne, pt_eq; nra. }
    exists (Pt (px p + h / L * (py v - py u)) (py p - h / L * (px v - px u))). split.
    - replace (orient u v _) with (h - h / L * L) by (unfold h, L, orient, dist2; cbn [px py]; ring).
      replace (h - h / L * L) with 0 by (field; lra). lra.
    - unfold dist2. cbn [px py].
      replace (_ + _) with (h * h / (L * L) * L) by (unfold L, dist2; field; fold (dist2 u v); fold L; lra).
      replace (h * h / (L * L) * L) with (h * h / L) by (field; lra).
      apply (Rmult_le_reg_r L); auto. unfold Rdiv. rewrite Rmult_assoc, Rinv_l by lra. rewrite Rmult_1_r.
      assert (Hh : h * h <= 8.5 * m * len1 u v * (8.5 * m * len1 u v)).
      { replace (h * h) with ((s * h) * (s * h)) by (destruct Hs as [-> | ->]; ring). nra. }
      assert (m * m * (len1 u v * len1 u v) <= m * m * (2 * L)) by (apply Rmult_le_compat_l; auto; apply Rmult_le_pos; lra).
      assert (0 <= m * m * L) by (apply Rmult_le_pos; [apply Rmult_le_pos; lra|lra]). lra.
  Qed.

  Lemma side_ok_ne u v : side_ok u v -> u <> v.
  Proof.
    intros H ->. pose proof (bpow_gt_0 radix2 (-250)). unfold side_ok in H. replace (py v - py v) with 0 in H by ring. replace (px v - px v) with 0 in H by ring.
    rewrite Rabs_R0 in H. lra.
  Qed.

  Lemma tri_sound a b c p tol : bpt k a -> bpt k b -> bpt k c -> bpt k p ->
    side_ok (rp a) (rp b) -> side_ok (rp b) (rp c) -> side_ok (rp c) (rp a) -> bounded k tol -> 0 <= B2R tol ->
    bpow radix2 (k - 49) * (len1 (rp a) (rp b) + len1 (rp b) (rp c) + len1 (rp c) (rp a)) < Rabs (orient (rp a) (rp b) (rp c)) ->
    point_in_triangle p a b c tol = true ->
    (exists s, (s = 1 \/ s = -1) /\ 0 < s * orient (rp a) (rp b) (rp c)
      /\ near_half (bpow radix2 (k - 49)) s (rp a) (rp b) (rp p) /\ near_half (bpow radix2 (k - 49)) s (rp b) (rp c) (rp p)
      /\ near_half (bpow radix2 (k - 49)) s (rp c) (rp a) (rp p))
    \/ near_sides (2 * B2R tol + bpow radix2 (k - 48)) (rp a) (rp b) (rp c) (rp p).
  Proof.
    intros Ba Bb Bc Bp S1 S2 S3 Bt Ht HD H. unfold point_in_triangle in H. cbv zeta in H.
    destruct (cross_side a b p Ba Bb Bp S1) as ((F1 & _) & E1). destruct (cross_side b c p Bb Bc Bp S2) as ((F2 & _) & E2).
    destruct (cross_side c a p Bc Ba Bp S3) as ((F3 & _) & E3). cbv zeta in E1, E2, E3.
    destruct (_ && _) eqn:Es in H.
    - left. clear H. apply andb_true_iff in Es. destruct Es as (Ea & Eb). apply eqb_prop in Ea. apply eqb_prop in Eb.
      rewrite !nltb_B in Ea by auto. rewrite !nltb_B in Eb by auto. change (B2R (nofZ 0 : b64)) with 0 in *.
      rewrite m16' in HD. pose proof m_pos3 as Pm. pose proof (orient_sum (rp a) (rp b) (rp c) (rp p)) as S.
      pose proof (len1_pos (rp a) (rp b)) as P1. pose proof (len1_pos (rp b) (rp c)) as P2. pose proof (len1_pos (rp c) (rp a)) as P3.
      assert (Q1 := Rmult_le_pos m _ (Rlt_le _ _ Pm) P1). assert (Q2 := Rmult_le_pos m _ (Rlt_le _ _ Pm) P2). assert (Q3 := Rmult_le_pos m _ (Rlt_le _ _ Pm) P3).
      pose proof (side_ok_ne _ _ S1). pose proof (side_ok_ne _ _ S2). pose proof (side_ok_ne _ _ S3).
      apply Rabs_le_iff in E1, E2, E3.
      set (A := B2R (cross_product (to_vector a b) (to_vector a p))) in *. set (B := B2R (cross_product (to_vector b c) (to_vector b p))) in *.
      set (C := B2R (cross_product (to_vector c a) (to_vector c p))) in *.
      destruct (Rlt_dec 0 A) as [G|G].
      + rewrite (Rlt_bool_true 0 A G) in Ea. symmetry in Ea. rewrite Ea in Eb. symmetry in Eb. apply Rlt_bool_true_iff in Ea. apply Rlt_bool_true_iff in Eb.
        exists 1. split; [auto|]. split.
        { unfold Rabs in HD. destruct (Rcase_abs _); lra. }
        repeat split; apply near_half_of; auto; lra.
      + rewrite (Rlt_bool_false 0 A) in Ea by lra. symmetry in Ea. rewrite Ea in Eb. symmetry in Eb. apply Rlt_bool_false_iff in Ea. apply Rlt_bool_false_iff in Eb.
        exists (-1). split; [auto|]. split.
        { unfold Rabs in HD. destruct (Rcase_abs _); lra. }
        repeat split; apply near_half_of; auto; lra.
    - right. clear Es. unfold near_sides. apply orb_true_iff in H. destruct H as [H|H]; [apply orb_true_iff in H; destruct H as [H|H]|];
        apply andb_true_iff in H; destruct H as (Hw & Hi); [left|right; left|right; right]; now apply near_sound2.
  Qed.
End Tri.
