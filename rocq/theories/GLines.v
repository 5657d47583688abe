(** Segment-segment intersection over exact reals. *)
From Verif Require Import RBase MGeometry GBox GEdges.
Open Scope R_scope.

(** the tolerance used by lines_intersect, geometry_utils.py:396-398 *)
Definition seg_tol (p q : pt) : R :=
  Rmax (/ 1000000000000000) (/ 1000000000000 * Rmax (Rabs (px q - px p)) (Rabs (py q - py p))).

Lemma seg_tol_pos p q : 0 < seg_tol p q.
Proof. unfold seg_tol. eapply Rlt_le_trans; [|apply Rmax_l]. lra. Qed.

Lemma nmax_R (x y : R) : nmax x y = Rmax x y.
Proof. unfold nmax, Rmax. rsimp. rcase; destruct (Rle_dec x y); lra. Qed.
Lemma nmin_R (x y : R) : nmin x y = Rmin x y.
Proof. unfold nmin, Rmin. rsimp. rcase; destruct (Rle_dec x y); lra. Qed.

Lemma Rmax_cases x y : (x <= Rmax x y /\ y <= Rmax x y) /\ (Rmax x y = x \/ Rmax x y = y).
Proof. unfold Rmax. destruct (Rle_dec x y); lra. Qed.
Lemma Rmin_cases x y : (Rmin x y <= x /\ Rmin x y <= y) /\ (Rmin x y = x \/ Rmin x y = y).
Proof. unfold Rmin. destruct (Rle_dec x y); lra. Qed.

Lemma sq_pos x : x <> 0 -> 0 < x * x.
Proof. intros H. exact (Rsqr_pos_lt x H). Qed.

Lemma opp_sign x y : x * y < 0 -> (0 < x /\ y < 0) \/ (x < 0 /\ 0 < y).
Proof.
  intros H. destruct (Rtotal_order x 0) as [Hx|[->|Hx]]; [right|lra|left]; split; auto;
    apply Rnot_le_lt; intros Hy; nra.
Qed.

Definition close1 (lo1 hi1 lo2 hi2 t : R) : Prop :=
  Rmin lo1 hi1 - Rmax lo2 hi2 < t /\ Rmin lo2 hi2 - Rmax lo1 hi1 < t.

(** one coordinate of two points just beyond the end b of the segment ab *)
Lemma beyond (a b p q p' q' k l t : R) : 0 < t -> 0 < k <= l ->
  p' = b + k * (b - a) -> q' = b + l * (b - a) -> - t < p - p' < t -> - t < q - q' < t ->
  close1 a b p q t ->
  (Rmin p q - t < b < Rmax p q + t) /\ Rabs (b - p) < 3 * t.
Proof.
  intros Ht Hk Ep Eq Hp Hq (H1 & H2).
  destruct (Rmin_cases p q) as (M1 & M2). destruct (Rmax_cases p q) as (M3 & M4).
  destruct (Rle_dec a b) as [Hab|Hab].
  - rewrite Rmax_right in H2 by lra.
    assert (0 <= k * (b - a)) by (apply Rmult_le_pos; lra).
    assert (0 <= (l - k) * (b - a)) by (apply Rmult_le_pos; lra).
    split; [lra|]. apply Rabs_def1; lra.
  - rewrite Rmin_right in H1 by lra.
    assert (0 <= k * (a - b)) by (apply Rmult_le_pos; lra).
    assert (0 <= (l - k) * (a - b)) by (apply Rmult_le_pos; lra).
    split; [lra|]. apply Rabs_def1; lra.
Qed.

Lemma close1_swap_pq a b p q t : close1 a b p q t -> close1 a b q p t.
Proof. unfold close1. rewrite (Rmin_comm p q), (Rmax_comm p q). auto. Qed.
Lemma close1_swap_ab a b p q t : close1 a b p q t -> close1 b a p q t.
Proof. unfold close1. rewrite (Rmin_comm a b), (Rmax_comm a b). auto. Qed.

(** one coordinate of a point of ab between the feet of p and q *)
Lemma between (p q p' q' l t : R) : 0 <= l <= 1 -> - t < p - p' < t -> - t < q - q' < t ->
  Rabs ((p' + l * (q' - p')) - (p + l * (q - p))) < t.
Proof.
  intros Hl Hp Hq.
  replace ((p' + l * (q' - p')) - (p + l * (q - p))) with ((p' - p) + l * ((q' - q) - (p' - p))) by ring.
  apply Rabs_def1; [apply comb_lt|apply comb_gt]; lra.
Qed.

Definition cr (u v : pt) : R := px u * py v - py u * px v.

(** ** The branches of the function as propositions *)
Section Lines.
  Variables a b p q : pt.
  Notation Vx := (px b - px a). Notation Vy := (py b - py a).
  Notation Ux := (px q - px p). Notation Uy := (py q - py p).
  Notation tol := (seg_tol p q).
  Definition sa : R := orient p q a.
  Definition sb : R := orient p q b.
  Definition rp : R := orient a b p.
  Definition rq : R := orient a b q.
  Definition den : R := Vx * Uy - Vy * Ux.
  Definition len2 : R := Vx * Vx + Vy * Vy.

  Definition overlap_within (t : R) : Prop :=
    close1 (px a) (px b) (px p) (px q) t /\ close1 (py a) (py b) (py p) (py q) t.
  Definition crossing : Prop :=
    ((0 < sa /\ sb <= 0) \/ (sa <= 0 /\ 0 < sb)) /\ ((0 < rp /\ rq <= 0) \/ (rp <= 0 /\ 0 < rq)).
  Definition parallel_far : Prop :=
    (Ux = 0 /\ Vx = 0 /\ px a <> px p) \/ (Uy = 0 /\ Vy = 0 /\ py a <> py p).
  Definition near_line : Prop := rp * rp < tol * len2 * tol /\ rq * rq < tol * len2 * tol.

  Lemma den_s : sa - sb = den. Proof. unfold sa, sb, den, orient. ring. Qed.
  Lemma den_r : rq - rp = den. Proof. unfold rp, rq, den, orient. ring. Qed.

  Lemma left_of_s x : left_of x p (to_vector p q) = Rlt_bool 0 (orient p q x).
  Proof.
    unfold left_of, to_vector, orient. rsimp. repeat rcase; auto; lra.
  Qed.
  Lemma left_of_r x : left_of x a (to_vector a b) = Rlt_bool 0 (orient a b x).
  Proof.
    unfold left_of, to_vector, orient. rsimp. repeat rcase; auto; lra.
  Qed.

  Lemma has_overlap_close lo1 hi1 lo2 hi2 t : has_overlap lo1 hi1 lo2 hi2 t = true <-> close1 lo1 hi1 lo2 hi2 t.
  Proof.
    unfold has_overlap, close1. rewrite !nmin_R, !nmax_R. rsimp. split.
    - intros H. rb. auto.
    - intros (H1 & H2). rewrite !Rlt_bool_true by auto. reflexivity.
  Qed.

  (** the location branch *)
  Lemma location_ok : den <> 0 ->
    intersection_location_point (to_vector a b) (to_vector p q) a p tol =
    Ok (if Rlt_bool (den * den) (tol * len2 * tol) then None else Some (at_ a b (sa / den))).
  Proof.
    intros Hd. unfold intersection_location_point, within_perpendicular_distance, cross_product,
      length_squared, to_vector, ndiv. rsimp. fold den len2.
    destruct (Rlt_bool (den * den) (tol * len2 * tol)); auto.
    rewrite Req_bool_false by exact Hd. cbn [bind]. do 2 f_equal.
    assert (E : ((px p - px a) * Uy - (py p - py a) * Ux) = sa) by (unfold sa, orient; ring).
    rewrite E. reflexivity.
  Qed.

  Lemma crossing_den : crossing -> den <> 0.
  Proof. unfold crossing. rewrite <- den_s. lra. Qed.

  (** the common point of crossing segments *)
  Lemma crossing_point : crossing -> 0 <= sa / den <= 1 /\ 0 <= - rp / den <= 1
    /\ at_ a b (sa / den) = at_ p q (- rp / den).
  Proof.
    intros Hc. pose proof (crossing_den Hc) as Hd. destruct Hc as (H1 & H2).
    assert (B : forall x y, x - y = den -> (0 < x /\ y <= 0) \/ (x <= 0 /\ 0 < y) -> 0 <= x / den <= 1).
    { intros x y E [(Hx & Hy)|(Hx & Hy)].
      - assert (0 < den) by lra. split.
        + apply Rmult_le_pos; [lra|]. left. now apply Rinv_0_lt_compat.
        + apply (Rmult_le_reg_r den); [lra|]. unfold Rdiv. rewrite Rmult_assoc, Rinv_l; lra.
      - assert (den < 0) by lra. split.
        + replace (x / den) with (- x * / - den) by (field; lra). apply Rmult_le_pos; [lra|].
          left. apply Rinv_0_lt_compat. lra.
        + replace (x / den) with (- x * / - den) by (field; lra).
          apply (Rmult_le_reg_r (- den)); [lra|]. rewrite Rmult_assoc, Rinv_l; lra. }
    split; [apply (B sa sb); [apply den_s|exact H1]|].
    split.
    { assert (E : rq - rp = den) by apply den_r.
      assert (B2 : 0 <= rq / den <= 1 -> 0 <= - rp / den <= 1).
      { intros (G1 & G2). replace (- rp / den) with (1 - rq / den) by (rewrite <- E; field; lra). lra. }
      apply B2. apply (B rq rp); [exact E|]. tauto. }
    apply pt_eq; unfold at_; cbn [px py]; apply (Rmult_eq_reg_r den); auto.
    - replace ((px a + sa / den * (px b - px a)) * den) with (px a * den + sa * (px b - px a)) by (field; auto).
      replace ((px p + - rp / den * (px q - px p)) * den) with (px p * den - rp * (px q - px p)) by (field; auto).
      unfold sa, rp, den, orient. ring.
    - replace ((py a + sa / den * (py b - py a)) * den) with (py a * den + sa * (py b - py a)) by (field; auto).
      replace ((py p + - rp / den * (py q - py p)) * den) with (py p * den - rp * (py q - py p)) by (field; auto).
      unfold sa, rp, den, orient. ring.
  Qed.

  (** The answer of lines_intersect, case by case *)
  Lemma lines_intersect_cases : exists r, lines_intersect a b p q = Ok r /\
    ( (r = (false, None) /\ (a = b \/ p = q \/ parallel_far \/ ~ overlap_within tol \/ (~ crossing /\ ~ near_line)))
      \/ (a <> b /\ p <> q /\ ~ parallel_far /\ overlap_within tol /\ crossing
          /\ r = (true, if Rlt_bool (den * den) (tol * len2 * tol) then None else Some (at_ a b (sa / den))))
      \/ (a <> b /\ p <> q /\ ~ parallel_far /\ overlap_within tol /\ ~ crossing /\ near_line
          /\ r = (true, midpoint_collinear_lines a b p q))).
  Proof.
    unfold lines_intersect.
    assert (Edeg : ((px (to_vector p q) =? 0)%num && (py (to_vector p q) =? 0)%num
              || (px (to_vector a b) =? 0)%num && (py (to_vector a b) =? 0)%num)%bool = true
              <-> (p = q \/ a = b)).
    { unfold to_vector. rsimp. rewrite orb_true_iff, !andb_true_iff, !Reqb_iff, !diff_zero. tauto. }
    destruct (_ || _)%bool eqn:E1.
    { eexists; split; [reflexivity|]. left. split; auto. apply proj1 in Edeg. specialize (Edeg eq_refl). tauto. }
    assert (Hne : a <> b /\ p <> q).
    { split; intros ->; apply proj2 in Edeg; discriminate Edeg; auto. }
    clear Edeg E1. destruct Hne as (Hab & Hpq).
    change (px (to_vector p q)) with Ux. change (py (to_vector p q)) with Uy.
    change (px (to_vector a b)) with Vx. change (py (to_vector a b)) with Vy.
    rsimp.
    destruct (Req_bool Ux 0 && Req_bool Vx 0 && negb (Req_bool (px a) (px p)))%bool eqn:E2; cbn [px py].
    { eexists; split; [reflexivity|]. left. split; auto. right. right. left. left. rb. auto. }
    destruct (Req_bool Uy 0 && Req_bool Vy 0 && negb (Req_bool (py a) (py p)))%bool eqn:E3.
    { eexists; split; [reflexivity|]. left. split; auto. right. right. left. right. rb. auto. }
    assert (Hpf : ~ parallel_far).
    { intros [(H1 & H2 & H3)|(H1 & H2 & H3)].
      - rewrite H1, H2 in E2. rewrite Req_bool_true, Req_bool_false in E2 by auto. discriminate.
      - rewrite H1, H2 in E3. rewrite Req_bool_true, Req_bool_false in E3 by auto. discriminate. }
    clear E2 E3.
    rewrite !nmax_R.
    change (Rmax (/ 1000000000000000) (/ 1000000000000 * Rmax (Rabs Ux) (Rabs Uy))) with tol.
    destruct (has_overlap (px a) (px b) (px p) (px q) tol) eqn:O1; cbn [negb orb].
    2:{ eexists; split; [reflexivity|]. left. split; auto. do 3 right. left. intros (H & _).
        apply has_overlap_close in H. congruence. }
    destruct (has_overlap (py a) (py b) (py p) (py q) tol) eqn:O2; cbn [negb].
    2:{ eexists; split; [reflexivity|]. left. split; auto. do 3 right. left. intros (_ & H).
        apply has_overlap_close in H. congruence. }
    apply has_overlap_close in O1, O2. assert (Ho : overlap_within tol) by (split; auto).
    rewrite !left_of_s, !left_of_r. fold sa sb rp rq.
    destruct (negb (Bool.eqb (Rlt_bool 0 sa) (Rlt_bool 0 sb)) && negb (Bool.eqb (Rlt_bool 0 rp) (Rlt_bool 0 rq)))%bool eqn:Ec.
    - assert (Hc : crossing).
      { rb. revert H H0. unfold crossing. repeat rcase; cbn; try discriminate; intros _ _; split; lra. }
      rewrite (location_ok (crossing_den Hc)). cbn [bind].
      eexists; split; [reflexivity|]. right. left. auto 10.
    - assert (Hc : ~ crossing).
      { intros (H1 & H2). revert Ec. repeat rcase; cbn; try discriminate; intros _; lra. }
      unfold within_perpendicular_distance, cross_product, length_squared, to_vector. rsimp. fold len2.
      assert (Ep : Vx * (py p - py a) - Vy * (px p - px a) = rp) by reflexivity.
      assert (Eq : Vx * (py q - py a) - Vy * (px q - px a) = rq) by reflexivity.
      rewrite Ep, Eq.
      destruct (Rlt_bool (rp * rp) (tol * len2 * tol) && Rlt_bool (rq * rq) (tol * len2 * tol))%bool eqn:En.
      + eexists; split; [reflexivity|]. right. right. rb. repeat (split; auto).
      + eexists; split; [reflexivity|]. left. split; auto. do 4 right. split; auto. intros (H1 & H2).
        rewrite !Rlt_bool_true in En by auto. discriminate.
  Qed.

  Lemma lines_intersect_total : exists r, lines_intersect a b p q = Ok r.
  Proof. destruct lines_intersect_cases as (r & E & _). eauto. Qed.

  (* ---------------------------------------------------------------- *)
  (** ** Near the line *)
  Lemma len2_pos : a <> b -> 0 < len2.
  Proof.
    intros H. unfold len2. destruct (Req_dec Vx 0) as [Ex|Ex].
    - destruct (Req_dec Vy 0) as [Ey|Ey]; [destruct H; apply diff_zero; auto|].
      pose proof (sq_pos _ Ey). pose proof (Rle_0_sqr Vx) as H'. unfold Rsqr in H'. lra.
    - pose proof (sq_pos _ Ex). pose proof (Rle_0_sqr Vy) as H'. unfold Rsqr in H'. lra.
  Qed.

  (** foot of x on the line ab, as a parameter *)
  Definition foot (x : pt) : R := ((px x - px a) * Vx + (py x - py a) * Vy) / len2.

  Lemma sq_lt (x y : R) : 0 <= y -> x * x < y * y -> - y < x < y.
  Proof. intros Hy H. split; apply Rnot_le_lt; intros Hx; nra. Qed.

  Lemma foot_near x : a <> b -> orient a b x * orient a b x < tol * len2 * tol ->
    - tol < px x - px (at_ a b (foot x)) < tol /\ - tol < py x - py (at_ a b (foot x)) < tol.
  Proof.
    intros Hab H. pose proof (len2_pos Hab) as Hl. pose proof (seg_tol_pos p q) as Ht.
    set (o := orient a b x) in *.
    assert (Ex : px x - px (at_ a b (foot x)) = - Vy * (o / len2)).
    { unfold foot, at_; cbn [px py]. apply (Rmult_eq_reg_r len2); [|lra].
      replace ((px x - (px a + ((px x - px a) * Vx + (py x - py a) * Vy) / len2 * Vx)) * len2)
        with ((px x - px a) * len2 - ((px x - px a) * Vx + (py x - py a) * Vy) * Vx) by (field; lra).
      replace (- Vy * (o / len2) * len2) with (- Vy * o) by (field; lra).
      unfold len2, o, orient. ring. }
    assert (Ey : py x - py (at_ a b (foot x)) = Vx * (o / len2)).
    { unfold foot, at_; cbn [px py]. apply (Rmult_eq_reg_r len2); [|lra].
      replace ((py x - (py a + ((px x - px a) * Vx + (py x - py a) * Vy) / len2 * Vy)) * len2)
        with ((py x - py a) * len2 - ((px x - px a) * Vx + (py x - py a) * Vy) * Vy) by (field; lra).
      replace (Vx * (o / len2) * len2) with (Vx * o) by (field; lra).
      unfold len2, o, orient. ring. }
    rewrite Ex, Ey.
    assert (S : (o / len2) * (o / len2) * len2 < tol * tol).
    { apply (Rmult_lt_reg_r len2); auto.
      replace (o / len2 * (o / len2) * len2 * len2) with (o * o) by (field; lra). lra. }
    unfold len2 in S at 3. set (k := o / len2) in *.
    clearbody k. assert (0 <= k * k * (Vx * Vx)) by (apply Rmult_le_pos; apply Rle_0_sqr).
    assert (0 <= k * k * (Vy * Vy)) by (apply Rmult_le_pos; apply Rle_0_sqr).
    split; apply sq_lt; try lra.
  Qed.

  (** a true answer: some point of ab lies strictly inside the box of p, q
      widened by the tolerance, and close to the segment pq *)
  Lemma true_near r : lines_intersect a b p q = Ok (true, r) ->
    a <> b /\ p <> q /\
    exists t s, 0 <= t <= 1 /\ 0 <= s <= 1
      /\ (Rmin (px p) (px q) - tol < px (at_ a b t) < Rmax (px p) (px q) + tol)
      /\ (Rmin (py p) (py q) - tol < py (at_ a b t) < Rmax (py p) (py q) + tol)
      /\ Rabs (px (at_ a b t) - px (at_ p q s)) < 3 * tol
      /\ Rabs (py (at_ a b t) - py (at_ p q s)) < 3 * tol.
  Proof.
    intros E. destruct lines_intersect_cases as (r' & E' & H). rewrite E in E'. inversion E'; subst r'. clear E'.
    pose proof (seg_tol_pos p q) as Ht.
    destruct (Rmin_cases (px p) (px q)) as (Mx1 & Mx2). destruct (Rmax_cases (px p) (px q)) as (Mx3 & Mx4).
    destruct (Rmin_cases (py p) (py q)) as (My1 & My2). destruct (Rmax_cases (py p) (py q)) as (My3 & My4).
    destruct H as [(H & _)|[(Hab & Hpq & _ & _ & Hc & _)|(Hab & Hpq & _ & Ho & Hc & (Hp & Hq) & _)]]; [discriminate| |];
      (split; [exact Hab|]); (split; [exact Hpq|]).
    - destruct (crossing_point Hc) as (T1 & T2 & Ex). exists (sa / den), (- rp / den).
      split; auto. split; auto. rewrite Ex.
      assert (Hb : in_box (seg_box p q) (at_ p q (- rp / den))).
      { apply seg_in_box. exists (- rp / den). auto. }
      destruct Hb as (B1 & B2). unfold seg_box in B1, B2. cbn [xmin xmax ymin ymax] in B1, B2.
      split; [lra|]. split; [lra|]. split; apply Rabs_def1; lra.
    - apply foot_near in Hp, Hq; auto. fold foot in *.
      destruct Hp as (Px & Py), Hq as (Qx & Qy).
      assert (Hend : forall x : pt, - tol < px x - px (at_ a b (foot x)) < tol ->
         - tol < py x - py (at_ a b (foot x)) < tol -> 0 <= foot x <= 1 ->
         forall s, 0 <= s <= 1 -> at_ p q s = x ->
         exists t s, 0 <= t <= 1 /\ 0 <= s <= 1
          /\ (Rmin (px p) (px q) - tol < px (at_ a b t) < Rmax (px p) (px q) + tol)
          /\ (Rmin (py p) (py q) - tol < py (at_ a b t) < Rmax (py p) (py q) + tol)
          /\ Rabs (px (at_ a b t) - px (at_ p q s)) < 3 * tol
          /\ Rabs (py (at_ a b t) - py (at_ p q s)) < 3 * tol).
      { intros x Hx Hy Hf s Hs Es. exists (foot x), s. rewrite Es. split; auto. split; auto.
        assert (Hb : in_box (seg_box p q) x) by (apply seg_in_box; exists s; auto).
        destruct Hb as (B1 & B2). unfold seg_box in B1, B2. cbn [xmin xmax ymin ymax] in B1, B2.
        split; [lra|]. split; [lra|]. split; apply Rabs_def1; lra. }
      assert (Hmid : forall kx ky (x y : pt), kx < 0 -> 1 < ky -> forall s1 s2, at_ p q s1 = x -> at_ p q s2 = y ->
         (- tol < px x - px (at_ a b kx) < tol /\ - tol < py x - py (at_ a b kx) < tol) ->
         (- tol < px y - px (at_ a b ky) < tol /\ - tol < py y - py (at_ a b ky) < tol) ->
         (0 <= s1 <= 1 /\ 0 <= s2 <= 1) ->
         exists t s, 0 <= t <= 1 /\ 0 <= s <= 1
          /\ (Rmin (px p) (px q) - tol < px (at_ a b t) < Rmax (px p) (px q) + tol)
          /\ (Rmin (py p) (py q) - tol < py (at_ a b t) < Rmax (py p) (py q) + tol)
          /\ Rabs (px (at_ a b t) - px (at_ p q s)) < 3 * tol
          /\ Rabs (py (at_ a b t) - py (at_ p q s)) < 3 * tol).
      { intros kx ky x y Hkx Hky s1 s2 E1 E2 (X1 & X2) (Y1 & Y2) (S1 & S2).
        set (l := - kx / (ky - kx)).
        assert (Hl : 0 <= l <= 1).
        { unfold l. split.
          - apply Rmult_le_pos; [lra|]. left. apply Rinv_0_lt_compat. lra.
          - apply (Rmult_le_reg_r (ky - kx)); [lra|]. unfold Rdiv. rewrite Rmult_assoc, Rinv_l; lra. }
        assert (Hs : 0 <= s1 + l * (s2 - s1) <= 1) by (split; [apply comb_ge|apply comb_le]; lra).
        exists 0, (s1 + l * (s2 - s1)). rewrite at_0. split; [lra|]. split; [exact Hs|].
        assert (Hb : in_box (seg_box p q) (at_ p q (s1 + l * (s2 - s1)))) by (apply seg_in_box; eexists; split; eauto).
        destruct Hb as (B1 & B2). unfold seg_box in B1, B2. cbn [xmin xmax ymin ymax] in B1, B2.
        pose proof (between _ _ _ _ l tol Hl X1 Y1) as N1. pose proof (between _ _ _ _ l tol Hl X2 Y2) as N2.
        assert (El : kx + l * (ky - kx) = 0) by (unfold l; field; lra).
        assert (Ea1 : px (at_ a b kx) + l * (px (at_ a b ky) - px (at_ a b kx)) = px a).
        { transitivity (px a + (kx + l * (ky - kx)) * (px b - px a)); [unfold at_; cbn [px py]; ring|rewrite El; ring]. }
        assert (Ea2 : py (at_ a b kx) + l * (py (at_ a b ky) - py (at_ a b kx)) = py a).
        { transitivity (py a + (kx + l * (ky - kx)) * (py b - py a)); [unfold at_; cbn [px py]; ring|rewrite El; ring]. }
        assert (Ex1 : px x + l * (px y - px x) = px (at_ p q (s1 + l * (s2 - s1)))) by (rewrite <- E1, <- E2; unfold at_; cbn [px py]; ring).
        assert (Ex2 : py x + l * (py y - py x) = py (at_ p q (s1 + l * (s2 - s1)))) by (rewrite <- E1, <- E2; unfold at_; cbn [px py]; ring).
        rewrite Ea1, Ex1 in N1. rewrite Ea2, Ex2 in N2.
        apply Rabs_def2 in N1, N2. split; [lra|]. split; [lra|]. split; apply Rabs_def1; lra. }
      destruct (Rle_dec 0 (foot p)) as [Fp0|Fp0]; [destruct (Rle_dec (foot p) 1) as [Fp1|Fp1]|].
      { apply (Hend p Px Py (conj Fp0 Fp1) 0); [lra|apply at_0]. }
      all: (destruct (Rle_dec 0 (foot q)) as [Fq0|Fq0]; [destruct (Rle_dec (foot q) 1) as [Fq1|Fq1]|]).
      1,4: apply (Hend q Qx Qy (conj Fq0 Fq1) 1); [lra|apply at_1].
      + (* both beyond b *) apply Rnot_le_lt in Fp1, Fq1.
        assert (G : forall k x, 1 < k -> px (at_ a b k) = px b + (k - 1) * (px b - px a)
                    /\ py (at_ a b k) = py b + (k - 1) * (py b - py a) /\ x = x :> R)
          by (intros; unfold at_; cbn [px py]; repeat split; ring).
        destruct (G _ 0 Fp1) as (Ep1 & Ep2 & _), (G _ 0 Fq1) as (Eq1 & Eq2 & _). clear G.
        destruct Ho as (Ox & Oy).
        destruct (Rle_dec (foot p) (foot q)) as [Hpq'|Hpq'].
        * exists 1, 0. rewrite at_1, at_0.
          destruct (beyond _ _ _ _ _ _ (foot p - 1) (foot q - 1) tol Ht ltac:(lra) Ep1 Eq1 Px Qx Ox).
          destruct (beyond _ _ _ _ _ _ (foot p - 1) (foot q - 1) tol Ht ltac:(lra) Ep2 Eq2 Py Qy Oy).
          repeat split; lra.
        * exists 1, 1. rewrite !at_1.
          destruct (beyond _ _ _ _ _ _ (foot q - 1) (foot p - 1) tol Ht ltac:(lra) Eq1 Ep1 Qx Px (close1_swap_pq _ _ _ _ _ Ox)) as (A1 & A2).
          destruct (beyond _ _ _ _ _ _ (foot q - 1) (foot p - 1) tol Ht ltac:(lra) Eq2 Ep2 Qy Py (close1_swap_pq _ _ _ _ _ Oy)) as (A3 & A4).
          rewrite (Rmin_comm (px q)), (Rmax_comm (px q)) in A1. rewrite (Rmin_comm (py q)), (Rmax_comm (py q)) in A3.
          repeat split; lra.
      + (* q before a, p beyond b *) exact (Hmid (foot q) (foot p) q p ltac:(lra) ltac:(lra) 1 0
            (at_1 p q) (at_0 p q) (conj Qx Qy) (conj Px Py) ltac:(lra)).
      + (* p before a, q beyond b *) exact (Hmid (foot p) (foot q) p q ltac:(lra) ltac:(lra) 0 1
            (at_0 p q) (at_1 p q) (conj Px Py) (conj Qx Qy) ltac:(lra)).
      + (* both before a *) apply Rnot_le_lt in Fp0, Fq0.
        assert (G : forall k, px (at_ a b k) = px a + (- k) * (px a - px b)
                    /\ py (at_ a b k) = py a + (- k) * (py a - py b))
          by (intros; unfold at_; cbn [px py]; split; ring).
        destruct (G (foot p)) as (Ep1 & Ep2), (G (foot q)) as (Eq1 & Eq2). clear G.
        destruct Ho as (Ox & Oy). apply close1_swap_ab in Ox, Oy.
        destruct (Rle_dec (foot q) (foot p)) as [Hpq'|Hpq'].
        * exists 0, 0. rewrite !at_0.
          destruct (beyond _ _ _ _ _ _ (- foot p) (- foot q) tol Ht ltac:(lra) Ep1 Eq1 Px Qx Ox).
          destruct (beyond _ _ _ _ _ _ (- foot p) (- foot q) tol Ht ltac:(lra) Ep2 Eq2 Py Qy Oy).
          repeat split; lra.
        * exists 0, 1. rewrite at_1, at_0.
          destruct (beyond _ _ _ _ _ _ (- foot q) (- foot p) tol Ht ltac:(lra) Eq1 Ep1 Qx Px (close1_swap_pq _ _ _ _ _ Ox)) as (A1 & A2).
          destruct (beyond _ _ _ _ _ _ (- foot q) (- foot p) tol Ht ltac:(lra) Eq2 Ep2 Qy Py (close1_swap_pq _ _ _ _ _ Oy)) as (A3 & A4).
          rewrite (Rmin_comm (px q)), (Rmax_comm (px q)) in A1. rewrite (Rmin_comm (py q)), (Rmax_comm (py q)) in A3.
          repeat split; lra.
  Qed.
End Lines.

(** a point of the segment strictly inside a box: more than one common point *)
Lemma inside_shares (K : bx) a b t : a <> b -> 0 <= t <= 1 ->
  xmin K < px (at_ a b t) < xmax K -> ymin K < py (at_ a b t) < ymax K -> shares (in_box K) a b.
Proof.
  intros Hab Ht Hx Hy.
  assert (He : exists e, 0 <= e <= 1 /\ e <> t).
  { destruct (Req_dec t 0); [exists 1|exists 0]; lra. }
  destruct He as (e & He & Hne).
  set (m := Rmin (Rmin (px (at_ a b t) - xmin K) (xmax K - px (at_ a b t)))
                 (Rmin (py (at_ a b t) - ymin K) (ymax K - py (at_ a b t)))).
  assert (Hm : 0 < m /\ m <= px (at_ a b t) - xmin K /\ m <= xmax K - px (at_ a b t)
               /\ m <= py (at_ a b t) - ymin K /\ m <= ymax K - py (at_ a b t)).
  { set (m1 := Rmin (px (at_ a b t) - xmin K) (xmax K - px (at_ a b t))) in *.
    set (m2 := Rmin (py (at_ a b t) - ymin K) (ymax K - py (at_ a b t))) in *.
    pose proof (Rmin_cases (px (at_ a b t) - xmin K) (xmax K - px (at_ a b t))) as P1. fold m1 in P1.
    pose proof (Rmin_cases (py (at_ a b t) - ymin K) (ymax K - py (at_ a b t))) as P2. fold m2 in P2.
    pose proof (Rmin_cases m1 m2) as P3. fold m in P3. clearbody m m1 m2. lra. }
  set (Wx := (e - t) * (px b - px a)). set (Wy := (e - t) * (py b - py a)).
  set (d := Rmin 1 (m / (Rabs Wx + Rabs Wy + 1))).
  pose proof (Rabs_pos Wx) as A1. pose proof (Rabs_pos Wy) as A2.
  assert (Hd : 0 < d <= 1 /\ d * (Rabs Wx + Rabs Wy + 1) <= m).
  { assert (0 < m / (Rabs Wx + Rabs Wy + 1)).
    { apply Rmult_lt_0_compat; [lra|]. apply Rinv_0_lt_compat. lra. }
    destruct (Rmin_cases 1 (m / (Rabs Wx + Rabs Wy + 1))) as (D1 & D2). fold d in D1, D2.
    split; [lra|]. apply (Rmult_le_reg_r (/ (Rabs Wx + Rabs Wy + 1))).
    - apply Rinv_0_lt_compat. lra.
    - rewrite Rmult_assoc, Rinv_r by lra. unfold Rdiv in D1. lra. }
  destruct Hd as (Hd & Hdm).
  assert (Bx : - m <= d * Wx <= m).
  { assert (- Rabs Wx <= Wx <= Rabs Wx) by (split; [pose proof (Rle_abs (- Wx)) as H; rewrite Rabs_Ropp in H; lra|apply Rle_abs]).
    assert (0 <= d * (Rabs Wx - Wx)) by (apply Rmult_le_pos; lra).
    assert (0 <= d * (Rabs Wx + Wx)) by (apply Rmult_le_pos; lra).
    assert (0 <= d * (Rabs Wy + 1)) by (apply Rmult_le_pos; lra). lra. }
  assert (By : - m <= d * Wy <= m).
  { assert (- Rabs Wy <= Wy <= Rabs Wy) by (split; [pose proof (Rle_abs (- Wy)) as H; rewrite Rabs_Ropp in H; lra|apply Rle_abs]).
    assert (0 <= d * (Rabs Wy - Wy)) by (apply Rmult_le_pos; lra).
    assert (0 <= d * (Rabs Wy + Wy)) by (apply Rmult_le_pos; lra).
    assert (0 <= d * (Rabs Wx + 1)) by (apply Rmult_le_pos; lra). lra. }
  exists (at_ a b t), (at_ a b (t + d * (e - t))).
  split.
  { intros E. apply at_inj in E; auto. assert (d * (e - t) = 0) by lra. apply Rmult_integral in H. lra. }
  split; [exists t; auto|].
  split; [eexists; split; [|reflexivity]; split; [apply comb_ge|apply comb_le]; lra|].
  split; [unfold in_box; lra|].
  assert (Ex : px (at_ a b (t + d * (e - t))) = px (at_ a b t) + d * Wx) by (unfold at_, Wx; cbn [px py]; ring).
  assert (Ey : py (at_ a b (t + d * (e - t))) = py (at_ a b t) + d * Wy) by (unfold at_, Wy; cbn [px py]; ring).
  unfold in_box. rewrite Ex, Ey. lra.
Qed.

(** ** Completeness: segments that cross properly *)
Lemma common_overlap a b p q t s g : 0 <= t <= 1 -> 0 <= s <= 1 -> at_ a b t = at_ p q s -> 0 < g ->
  overlap_within a b p q g.
Proof.
  intros Ht Hs E Hg.
  assert (A : in_box (seg_box a b) (at_ a b t)) by (apply seg_in_box; eexists; eauto).
  assert (B : in_box (seg_box p q) (at_ a b t)) by (rewrite E; apply seg_in_box; eexists; eauto).
  unfold in_box, seg_box in A, B. cbn [xmin xmax ymin ymax] in A, B.
  unfold overlap_within, close1. lra.
Qed.

Lemma crossing_found a b p q : orient a b p * orient a b q < 0 -> orient p q a * orient p q b < 0 ->
  exists t s, 0 < t < 1 /\ 0 < s < 1 /\ at_ a b t = at_ p q s
    /\ lines_intersect a b p q =
       Ok (true, if Rlt_bool (den a b p q * den a b p q) (seg_tol p q * len2 a b * seg_tol p q)
                 then None else Some (at_ a b t)).
Proof.
  intros H1 H2.
  assert (Hr : (0 < rp a b p /\ rq a b q < 0) \/ (rp a b p < 0 /\ 0 < rq a b q)).
  { apply opp_sign, H1. }
  assert (Hs : (0 < sa a p q /\ sb b p q < 0) \/ (sa a p q < 0 /\ 0 < sb b p q)).
  { apply opp_sign, H2. }
  assert (Hc : crossing a b p q) by (unfold crossing; lra).
  pose proof (crossing_den _ _ _ _ Hc) as Hd.
  destruct (crossing_point _ _ _ _ Hc) as (T1 & T2 & E).
  pose proof (den_s a b p q) as Ds. pose proof (den_r a b p q) as Dr.
  exists (sa a p q / den a b p q), (- rp a b p / den a b p q).
  assert (N : forall x d, d <> 0 -> x <> 0 -> x / d <> 0).
  { intros x d Hd' Hx H. apply Hx. replace x with (x / d * d) by (field; auto). rewrite H. ring. }
  assert (N1 : forall x y d, d <> 0 -> d - x = y -> y <> 0 -> x / d <> 1).
  { intros x y d Hd' Hx Hy H. apply Hy. rewrite <- Hx. replace x with (x / d * d) by (field; auto). rewrite H. ring. }
  pose proof (N (sa a p q) (den a b p q) Hd ltac:(lra)).
  pose proof (N (- rp a b p) (den a b p q) Hd ltac:(lra)).
  pose proof (N1 (sa a p q) (- sb b p q) (den a b p q) Hd ltac:(lra) ltac:(lra)).
  pose proof (N1 (- rp a b p) (rq a b q) (den a b p q) Hd ltac:(lra) ltac:(lra)).
  split; [lra|]. split; [lra|]. split; [exact E|].
  destruct (lines_intersect_cases a b p q) as (r & Er & C). rewrite Er. f_equal.
  destruct C as [(_ & [C|[C|[C|[C|(C & _)]]]])|[(_ & _ & _ & _ & _ & C)|(_ & _ & _ & _ & C & _)]];
    [exfalso..| exact C | exfalso]; try tauto.
  - subst b. unfold orient in H1. nra.
  - subst q. unfold orient in H2. nra.
  - apply Hd. unfold den. destruct C as [(C1 & C2 & _)|(C1 & C2 & _)]; rewrite C1, C2; ring.
  - apply C. eapply common_overlap; [| |exact E|apply seg_tol_pos]; lra.
Qed.

(** segments whose boxes are apart by the tolerance are not reported *)
Lemma apart_not_found a b p q : ~ overlap_within a b p q (seg_tol p q) ->
  lines_intersect a b p q = Ok (false, None).
Proof.
  intros H. destruct (lines_intersect_cases a b p q) as (r & Er & C). rewrite Er. f_equal.
  destruct C as [(C & _)|[(_ & _ & _ & C & _)|(_ & _ & _ & C & _)]]; tauto.
Qed.

(** a true answer is a common point, or both ends of pq are within the
    tolerance of the line ab *)
Lemma found_sound a b p q c : lines_intersect a b p q = Ok (true, c) ->
  (exists x, on_segment a b x /\ on_segment p q x /\ (c = None \/ c = Some x))
  \/ (near_line a b p q /\ c = midpoint_collinear_lines a b p q).
Proof.
  intros E. destruct (lines_intersect_cases a b p q) as (r & Er & C). rewrite E in Er. inversion Er; subst r.
  destruct C as [(C & _)|[(_ & _ & _ & _ & Hc & C)|(_ & _ & _ & _ & _ & N & C)]]; [discriminate| |].
  - left. destruct (crossing_point _ _ _ _ Hc) as (T1 & T2 & Ex). exists (at_ a b (sa a p q / den a b p q)).
    split; [eexists; split; [exact T1|reflexivity]|]. split; [rewrite Ex; eexists; split; [exact T2|reflexivity]|].
    inversion C. destruct (Rlt_bool _ _); auto.
  - right. split; auto. congruence.
Qed.

(* ------------------------------------------------------------------ *)
(** ** Collinear segments *)
Definition on_line (o d : pt) (k : R) : pt := Pt (px o + k * px d) (py o + k * py d).

Lemma collinear_found o d ka kb kp kq :
  ka <> kb -> kp <> kq -> (px d <> 0 \/ py d <> 0) ->
  Rmax (Rmin ka kb) (Rmin kp kq) <= Rmin (Rmax ka kb) (Rmax kp kq) ->
  lines_intersect (on_line o d ka) (on_line o d kb) (on_line o d kp) (on_line o d kq)
  = Ok (true, midpoint_collinear_lines (on_line o d ka) (on_line o d kb) (on_line o d kp) (on_line o d kq)).
Proof.
  intros Hab Hpq Hd Ho.
  set (a := on_line o d ka). set (b := on_line o d kb). set (p := on_line o d kp). set (q := on_line o d kq).
  assert (Hne : forall k l, k <> l -> on_line o d k <> on_line o d l).
  { intros k l Hkl E. inversion E as [[E1 E2]]. destruct Hd as [Hd|Hd].
    - apply Hkl. apply (Rmult_eq_reg_r (px d)); auto. lra.
    - apply Hkl. apply (Rmult_eq_reg_r (py d)); auto. lra. }
  assert (Hz : forall k l m, orient (on_line o d k) (on_line o d l) (on_line o d m) = 0)
    by (intros; unfold orient, on_line; cbn [px py]; ring).
  destruct (lines_intersect_cases a b p q) as (r & Er & C). rewrite Er. f_equal.
  assert (Nc : ~ crossing a b p q) by (unfold crossing, sa, sb, rp, rq, a, b, p, q; rewrite !Hz; lra).
  assert (Nn : near_line a b p q).
  { unfold near_line, rp, rq. pose proof (Hz ka kb kp : orient a b p = 0) as Zp. pose proof (Hz ka kb kq : orient a b q = 0) as Zq.
    rewrite Zp, Zq.
    assert (0 < len2 a b) by (apply len2_pos, Hne, Hab).
    pose proof (seg_tol_pos p q). assert (0 < seg_tol p q * len2 a b * seg_tol p q)
      by (repeat apply Rmult_lt_0_compat; auto). lra. }
  destruct C as [(_ & [C|[C|[C|[C|(_ & C)]]]])|[(_ & _ & _ & _ & C & _)|(_ & _ & _ & _ & _ & _ & C)]];
    [exfalso..| exact C]; try tauto.
  - exact (Hne _ _ Hab C).
  - exact (Hne _ _ Hpq C).
  - destruct C as [(C1 & C2 & C3)|(C1 & C2 & C3)]; unfold a, b, p, q, on_line in *; cbn [px py] in *.
    + assert (px d = 0) by (assert (E : (kb - ka) * px d = 0) by lra; apply Rmult_integral in E; lra).
      apply C3. rewrite H. ring.
    + assert (py d = 0) by (assert (E : (kb - ka) * py d = 0) by lra; apply Rmult_integral in E; lra).
      apply C3. rewrite H. ring.
  - apply C.
    (* a common point *)
    set (k := Rmax (Rmin ka kb) (Rmin kp kq)) in *.
    assert (Hk : Rmin ka kb <= k <= Rmax ka kb /\ Rmin kp kq <= k <= Rmax kp kq).
    { destruct (Rmax_cases (Rmin ka kb) (Rmin kp kq)) as (D1 & _). fold k in D1.
      destruct (Rmin_cases (Rmax ka kb) (Rmax kp kq)) as (D2 & _). lra. }
    assert (P : forall x y, x <> y -> Rmin x y <= k <= Rmax x y ->
                exists t, 0 <= t <= 1 /\ x + t * (y - x) = k).
    { intros x y Hxy H. exists ((k - x) / (y - x)). split; [|field; lra].
      destruct (Rlt_dec x y).
      - rewrite Rmin_left, Rmax_right in H by lra. split.
        + apply Rmult_le_pos; [lra|]. left. apply Rinv_0_lt_compat. lra.
        + apply (Rmult_le_reg_r (y - x)); [lra|]. unfold Rdiv. rewrite Rmult_assoc, Rinv_l; lra.
      - rewrite Rmin_right, Rmax_left in H by lra.
        replace ((k - x) / (y - x)) with ((x - k) / (x - y)) by (field; lra). split.
        + apply Rmult_le_pos; [lra|]. left. apply Rinv_0_lt_compat. lra.
        + apply (Rmult_le_reg_r (x - y)); [lra|]. unfold Rdiv. rewrite Rmult_assoc, Rinv_l; lra. }
    destruct (P ka kb Hab ltac:(tauto)) as (t & Ht & Et), (P kp kq Hpq ltac:(tauto)) as (s & Hs & Es).
    apply (common_overlap a b p q t s); auto; [|apply seg_tol_pos].
    unfold a, b, p, q, at_, on_line. cbn [px py]. f_equal.
    + transitivity (px o + (ka + t * (kb - ka)) * px d); [ring|]. rewrite Et, <- Es. ring.
    + transitivity (py o + (ka + t * (kb - ka)) * py d); [ring|]. rewrite Et, <- Es. ring.
Qed.

(** monotone coordinate *)
Lemma mono_max o d x y : 0 <= d -> Rmax (o + x * d) (o + y * d) = o + Rmax x y * d.
Proof.
  intros Hd. destruct (Rle_dec x y).
  - rewrite (Rmax_right x y) by lra. apply Rmax_right. assert (0 <= (y - x) * d) by (apply Rmult_le_pos; lra). lra.
  - rewrite (Rmax_left x y) by lra. apply Rmax_left. assert (0 <= (x - y) * d) by (apply Rmult_le_pos; lra). lra.
Qed.
Lemma mono_min o d x y : 0 <= d -> Rmin (o + x * d) (o + y * d) = o + Rmin x y * d.
Proof.
  intros Hd. destruct (Rle_dec x y).
  - rewrite (Rmin_left x y) by lra. apply Rmin_left. assert (0 <= (y - x) * d) by (apply Rmult_le_pos; lra). lra.
  - rewrite (Rmin_right x y) by lra. apply Rmin_right. assert (0 <= (x - y) * d) by (apply Rmult_le_pos; lra). lra.
Qed.

(** the swap of the end points orders them along the line *)
Lemma swap_order o d x y : x <> y -> 0 <= px d -> (px d = 0 -> 0 < py d) ->
  (Rlt_bool (px (on_line o d y)) (px (on_line o d x)) ||
   Req_bool (px (on_line o d x)) (px (on_line o d y)) && Rlt_bool (py (on_line o d y)) (py (on_line o d x)))%bool
  = Rlt_bool y x.
Proof.
  intros Hxy Hd H0. unfold on_line. cbn [px py].
  destruct (Req_dec (px d) 0) as [E|E].
  - rewrite E, !Rmult_0_r. specialize (H0 E). rewrite Rlt_bool_false, Req_bool_true by lra. cbn [orb andb].
    destruct (Rlt_bool_spec y x).
    + apply Rlt_bool_true. assert (0 < (x - y) * py d) by (apply Rmult_lt_0_compat; lra). lra.
    + apply Rlt_bool_false. assert (0 <= (y - x) * py d) by (apply Rmult_le_pos; lra). lra.
  - assert (Hp : 0 < px d) by lra. destruct (Rlt_bool_spec y x).
    + rewrite Rlt_bool_true; [reflexivity|]. assert (0 < (x - y) * px d) by (apply Rmult_lt_0_compat; lra). lra.
    + assert (0 < (y - x) * px d) by (apply Rmult_lt_0_compat; lra).
      rewrite Rlt_bool_false, Req_bool_false by lra. reflexivity.
Qed.

Lemma midpoint_eq o d ka kb kp kq : ka <> kb -> kp <> kq -> 0 <= px d -> (px d = 0 -> 0 < py d) ->
  midpoint_collinear_lines (on_line o d ka) (on_line o d kb) (on_line o d kp) (on_line o d kq) =
  let a' := on_line o d (Rmin ka kb) in let b' := on_line o d (Rmax ka kb) in
  let p' := on_line o d (Rmin kp kq) in let q' := on_line o d (Rmax kp kq) in
  if (Rlt_bool (Rmin (px b') (px q')) (Rmax (px a') (px p'))
      || Rlt_bool (Rmin (py b') (py q')) (Rmax (py a') (py p')))%bool
  then None
  else Some (Pt (/ 2 * (Rmax (px a') (px p') + Rmin (px b') (px q')))
                (/ 2 * (Rmax (py a') (py p') + Rmin (py b') (py q')))).
Proof.
  intros Hab Hpq Hd H0. unfold midpoint_collinear_lines. rewrite !nmax_R, !nmin_R.
  cbn [nadd nsub nmul nltb nleb neqb nhalf NumR].
  rewrite !swap_order by auto. cbv zeta.
  assert (S1 : forall x y, x <> y -> (if Rlt_bool y x then on_line o d y else on_line o d x) = on_line o d (Rmin x y)).
  { intros x y H. rcase; [rewrite Rmin_right|rewrite Rmin_left]; auto; lra. }
  assert (S2 : forall x y, x <> y -> (if Rlt_bool y x then on_line o d x else on_line o d y) = on_line o d (Rmax x y)).
  { intros x y H. rcase; [rewrite Rmax_left|rewrite Rmax_right]; auto; lra. }
  rewrite !S1, !S2 by auto. reflexivity.
Qed.

(** axis-parallel and ascending: the midpoint of the overlap *)
Lemma ascending_midpoint o d ka kb kp kq : ka <> kb -> kp <> kq ->
  0 <= px d -> 0 <= py d -> (px d <> 0 \/ py d <> 0) ->
  let lo := Rmax (Rmin ka kb) (Rmin kp kq) in let hi := Rmin (Rmax ka kb) (Rmax kp kq) in
  lo <= hi ->
  lines_intersect (on_line o d ka) (on_line o d kb) (on_line o d kp) (on_line o d kq)
  = Ok (true, Some (on_line o d ((lo + hi) / 2))).
Proof.
  intros Hab Hpq Hx Hy Hd lo hi Hlh. rewrite collinear_found; auto. do 2 f_equal.
  rewrite midpoint_eq by (auto; lra). cbv zeta. unfold on_line. cbn [px py].
  rewrite !mono_max, !mono_min by lra. fold lo hi.
  assert (0 <= (hi - lo) * px d) by (apply Rmult_le_pos; lra).
  assert (0 <= (hi - lo) * py d) by (apply Rmult_le_pos; lra).
  rewrite !Rlt_bool_false by lra. cbn [orb]. do 2 f_equal; field.
Qed.

(** descending: reported, with NaN coordinates *)
Lemma descending_nan o d ka kb kp kq : ka <> kb -> kp <> kq ->
  0 < px d -> py d < 0 ->
  Rmax (Rmin ka kb) (Rmin kp kq) <= Rmin (Rmax ka kb) (Rmax kp kq) ->
  lines_intersect (on_line o d ka) (on_line o d kb) (on_line o d kp) (on_line o d kq) = Ok (true, None).
Proof.
  intros Hab Hpq Hx Hy Hlh. rewrite collinear_found; auto; [|lra]. do 2 f_equal.
  rewrite midpoint_eq by (auto; lra). cbv zeta. unfold on_line. cbn [px py].
  rewrite !mono_max, !mono_min by lra.
  set (A := Rmin ka kb). set (B := Rmax ka kb). set (P := Rmin kp kq). set (Q := Rmax kp kq).
  assert (HAB : A < B) by (unfold A, B, Rmin, Rmax; destruct (Rle_dec ka kb); lra).
  assert (HPQ : P < Q) by (unfold P, Q, Rmin, Rmax; destruct (Rle_dec kp kq); lra).
  destruct (Rmin_cases (py o + B * py d) (py o + Q * py d)) as (M1 & _).
  destruct (Rmax_cases (py o + A * py d) (py o + P * py d)) as (M2 & _).
  assert (0 < (B - A) * - py d) by (apply Rmult_lt_0_compat; lra).
  rewrite (Rlt_bool_true (Rmin (py o + B * py d) _)) by lra. rewrite orb_true_r. reflexivity.
Qed.
