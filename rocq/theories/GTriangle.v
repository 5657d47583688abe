(** Exact real facts about triangles and the distance tests. *)
From Verif Require Import Base Num NumR MUtils MGeometry MAlgorithms SpecGeom SpecPoly RBase.
Open Scope R_scope.

(** ** The in-bounds and perpendicular distance test *)
Lemma sq_lt_abs x y : 0 <= y -> x * x < y * y -> - y < x < y.
Proof. intros Hy H. split; nra. Qed.

Lemma near_edge_dist a b p tol A :
  A * A = orient a b p * orient a b p ->
  within_perpendicular_distance A (to_vector a b) tol = true ->
  in_bounds p a b = true ->
  exists q, on_segment a b q /\ dist2 p q < 2 * (tol * tol).
Proof.
  intros EA Hw Hb.
  unfold within_perpendicular_distance, length_squared, to_vector in Hw. rsimp. rb.
  rewrite EA in Hw. unfold orient in Hw.
  unfold in_bounds, nmin, nmax in Hb. rsimp.
  set (dx := px b - px a) in *. set (dy := py b - py a) in *.
  assert (Hcase : (Rabs dy <= Rabs dx /\ exists t, 0 <= t <= 1 /\ px p = px a + t * dx)
               \/ (Rabs dx < Rabs dy /\ exists t, 0 <= t <= 1 /\ py p = py a + t * dy)).
  { assert (Hx : Rabs (xmax (Box 0 (if Rlt_bool (px a) (px b) then px b else px a) 0 0)
                      - (if Rlt_bool (px b) (px a) then px b else px a)) = Rabs dx).
    { unfold dx. rsimp. repeat rcase; try (exfalso; lra); unfold Rabs; repeat destruct Rcase_abs; lra. }
    assert (Hy : Rabs (xmax (Box 0 (if Rlt_bool (py a) (py b) then py b else py a) 0 0)
                      - (if Rlt_bool (py b) (py a) then py b else py a)) = Rabs dy).
    { unfold dy. rsimp. repeat rcase; try (exfalso; lra); unfold Rabs; repeat destruct Rcase_abs; lra. }
    rsimp. rewrite Hx, Hy in Hb.
    assert (Hpar : forall u v w, (if Rlt_bool v u then v else u) <= w -> w <= (if Rlt_bool u v then v else u) ->
              exists t, 0 <= t <= 1 /\ w = u + t * (v - u)).
    { intros u v w H1 H2. destruct (Req_dec u v) as [->|Hne].
      - exists 0. split; [lra|]. revert H1 H2. repeat rcase; lra.
      - exists ((w - u) / (v - u)). split; [|field; lra].
        destruct (Rlt_or_le u v) as [Hl|Hl].
        + assert (u <= w <= v) by (revert H1 H2; repeat rcase; lra).
          split; [apply Rmult_le_pos; [lra|left; apply Rinv_0_lt_compat; lra]|].
          apply Rmult_le_reg_r with (v - u); [lra|]. unfold Rdiv. rewrite Rmult_assoc, Rinv_l; lra.
        + assert (v <= w <= u) by (revert H1 H2; repeat rcase; lra).
          replace ((w - u) / (v - u)) with ((u - w) / (u - v)) by (field; lra).
          split; [apply Rmult_le_pos; [lra|left; apply Rinv_0_lt_compat; lra]|].
          apply Rmult_le_reg_r with (u - v); [lra|]. unfold Rdiv. rewrite Rmult_assoc, Rinv_l; lra. }
    apply orb_true_iff in Hb. destruct Hb as [Hb|Hb]; rb.
    - left. split; [assumption|]. unfold dx. apply Hpar; assumption.
    - right. split; [assumption|]. unfold dy. apply Hpar; assumption. }
  assert (Hsq : forall x y, Rabs x <= Rabs y -> x * x <= y * y).
  { intros x y H. apply Rsqr_le_abs_1 in H. unfold Rsqr in H. lra. }
  destruct Hcase as [(Hd & t & Ht & Ep)|(Hd & t & Ht & Ep)].
  - exists (at_ a b t). split; [exists t; auto|].
    unfold dist2, at_. cbn [px py]. fold dx dy. rewrite Ep in *.
    set (e := py p - (py a + t * dy)).
    assert (Hw' : (dx * e) * (dx * e) < tol * (dx * dx + dy * dy) * tol).
    { eapply Rle_lt_trans; [|exact Hw]. right. unfold e. ring. }
    pose proof (Hsq _ _ Hd) as Hdd.
    replace ((px a + t * dx - (px a + t * dx)) * (px a + t * dx - (px a + t * dx)) + e * e) with (e * e) by ring.
    pose proof (Rle_0_sqr tol) as Ht2. unfold Rsqr in Ht2.
    assert (H3 : (dx * dx) * (e * e) < (dx * dx) * (2 * (tol * tol))).
    { pose proof (Rmult_le_pos _ _ Ht2 (Rle_0_sqr dx)).
      assert (0 <= (tol * tol) * (dx * dx - dy * dy)) by (apply Rmult_le_pos; lra). nra. }
    apply Rmult_lt_reg_l in H3; auto.
    pose proof (Rle_0_sqr dx) as Hp. unfold Rsqr in Hp. destruct Hp as [Hp|Hp]; auto.
    rewrite <- Hp in H3. lra.
  - exists (at_ a b t). split; [exists t; auto|].
    unfold dist2, at_. cbn [px py]. fold dx dy. rewrite Ep in *.
    set (e := px p - (px a + t * dx)).
    assert (Hw' : (dy * e) * (dy * e) < tol * (dx * dx + dy * dy) * tol).
    { eapply Rle_lt_trans; [|exact Hw]. right. unfold e. ring. }
    pose proof (Hsq _ _ (Rlt_le _ _ Hd)) as Hdd.
    replace (e * e + (py a + t * dy - (py a + t * dy)) * (py a + t * dy - (py a + t * dy))) with (e * e) by ring.
    pose proof (Rle_0_sqr tol) as Ht2. unfold Rsqr in Ht2.
    assert (H3 : (dy * dy) * (e * e) < (dy * dy) * (2 * (tol * tol))).
    { assert (0 <= (tol * tol) * (dy * dy - dx * dx)) by (apply Rmult_le_pos; lra). nra. }
    apply Rmult_lt_reg_l in H3; auto.
    pose proof (Rle_0_sqr dy) as Hp. unfold Rsqr in Hp. destruct Hp as [Hp|Hp]; auto.
    rewrite <- Hp in H3. lra.
Qed.

Lemma near_edge_near a b p tol A : 0 <= tol ->
  A * A = orient a b p * orient a b p ->
  within_perpendicular_distance A (to_vector a b) tol = true ->
  in_bounds p a b = true -> near_segment (2 * tol) a b p.
Proof.
  intros Ht EA Hw Hb. destruct (near_edge_dist _ _ _ _ _ EA Hw Hb) as (q & Hq & Hd).
  exists q. split; auto. pose proof (Rle_0_sqr tol) as H. unfold Rsqr in H. lra.
Qed.

(** a point of the segment passes the bounds test *)
Lemma in_bounds_on_segment a b p : on_segment a b p -> in_bounds p a b = true.
Proof.
  intros (t & Ht & ->). unfold in_bounds, nmin, nmax, at_. rsimp.
  assert (H : forall u v, (if Rlt_bool v u then v else u) <= u + t * (v - u)
                          <= (if Rlt_bool u v then v else u)).
  { intros u v. repeat rcase.
    - lra.
    - split; [apply comb_ge|apply comb_le]; lra.
    - split; [apply comb_ge|apply comb_le]; lra.
    - replace v with u by lra. lra. }
  pose proof (H (px a) (px b)) as [H1 H2]. pose proof (H (py a) (py b)) as [H3 H4].
  apply orb_true_iff.
  match goal with |- ?x && _ = true \/ _ => destruct x end; [left|right]; cbn [negb andb].
  - rewrite (Rle_bool_true _ _ H1), (Rle_bool_true _ _ H2). reflexivity.
  - rewrite (Rle_bool_true _ _ H3), (Rle_bool_true _ _ H4). reflexivity.
Qed.

(** ** Barycentric coordinates *)
Lemma orient_sum a b c p : orient a b p + orient b c p + orient c a p = orient a b c.
Proof. unfold orient. ring. Qed.

Lemma in_triangle_orient a b c p : in_triangle a b c p -> forall s, 0 <= s * orient a b c ->
  0 <= s * orient a b p /\ 0 <= s * orient b c p /\ 0 <= s * orient c a p.
Proof.
  intros (u & v & w & Hu & Hv & Hw & E & Ex & Ey) s Hs.
  assert (E1 : orient a b p = w * orient a b c).
  { unfold orient. rewrite Ex, Ey. replace u with (1 - v - w) by lra. ring. }
  assert (E2 : orient b c p = u * orient a b c).
  { unfold orient. rewrite Ex, Ey. replace v with (1 - u - w) by lra. ring. }
  assert (E3 : orient c a p = v * orient a b c).
  { unfold orient. rewrite Ex, Ey. replace w with (1 - u - v) by lra. ring. }
  rewrite E1, E2, E3.
  repeat split; match goal with |- 0 <= s * (?x * _) => replace (s * (x * orient a b c)) with (x * (s * orient a b c)) by ring end;
  apply Rmult_le_pos; auto.
Qed.

Lemma inside_triangle_orient a b c p : inside_triangle a b c p -> forall s, 0 < s * orient a b c ->
  0 < s * orient a b p /\ 0 < s * orient b c p /\ 0 < s * orient c a p.
Proof.
  intros (u & v & w & Hu & Hv & Hw & E & Ex & Ey) s Hs.
  assert (E1 : orient a b p = w * orient a b c).
  { unfold orient. rewrite Ex, Ey. replace u with (1 - v - w) by lra. ring. }
  assert (E2 : orient b c p = u * orient a b c).
  { unfold orient. rewrite Ex, Ey. replace v with (1 - u - w) by lra. ring. }
  assert (E3 : orient c a p = v * orient a b c).
  { unfold orient. rewrite Ex, Ey. replace w with (1 - u - v) by lra. ring. }
  rewrite E1, E2, E3.
  repeat split; match goal with |- 0 < s * (?x * _) => replace (s * (x * orient a b c)) with (x * (s * orient a b c)) by ring end;
  apply Rmult_lt_0_compat; auto.
Qed.

Lemma orient_in_triangle a b c p : orient a b c <> 0 ->
  forall s, 0 < s * orient a b c ->
  0 <= s * orient a b p -> 0 <= s * orient b c p -> 0 <= s * orient c a p -> in_triangle a b c p.
Proof.
  intros Hn s Hs H1 H2 H3. set (D := orient a b c) in *.
  assert (Hsn : s <> 0) by (intros ->; lra).
  assert (Hpos : forall x, 0 <= s * x -> 0 <= x / D).
  { intros x Hx. replace (x / D) with ((s * x) / (s * D)) by (field; auto).
    apply Rmult_le_pos; auto. left. now apply Rinv_0_lt_compat. }
  exists (orient b c p / D), (orient c a p / D), (orient a b p / D).
  do 3 (split; [now apply Hpos|]).
  pose proof (orient_sum a b c p) as E. fold D in E.
  split; [|split].
  - replace 1 with (D / D) by (field; auto). rewrite <- E. field. rewrite E. auto.
  - apply (Rmult_eq_reg_r D); auto.
    replace ((orient b c p / D * px a + orient c a p / D * px b + orient a b p / D * px c) * D)
      with (orient b c p * px a + orient c a p * px b + orient a b p * px c) by (field; auto).
    unfold D, orient. ring.
  - apply (Rmult_eq_reg_r D); auto.
    replace ((orient b c p / D * py a + orient c a p / D * py b + orient a b p / D * py c) * D)
      with (orient b c p * py a + orient c a p * py b + orient a b p * py c) by (field; auto).
    unfold D, orient. ring.
Qed.

(** ** triangle_weights (C30) *)
Lemma triangle_weights_eq a b c p :
  orient a b c <> 0 ->
  triangle_weights a b c p =
  let i := 1 / Rabs (orient a b c) in
  let w := i * Rabs (orient a b p) in
  let v := i * Rabs (orient c a p) in
  Ok (1 - v - w, v, w).
Proof.
  intros Hn. unfold triangle_weights, cross_product, to_vector. rsimp.
  assert (EA : (px b - px a) * (py c - py a) - (py b - py a) * (px c - px a) = orient a b c) by reflexivity.
  rewrite EA, ndiv_R by now apply Rabs_no_R0.
  assert (Ev : (px c - px a) * (py p - py a) - (py c - py a) * (px p - px a) = - orient c a p).
  { unfold orient. ring. }
  rewrite Ev, Rabs_Ropp. reflexivity.
Qed.

Lemma triangle_weights_degenerate a b c p :
  orient a b c = 0 -> triangle_weights a b c p = Err EZeroDiv.
Proof.
  intros H. unfold triangle_weights, cross_product, to_vector. rsimp.
  assert (EA : (px b - px a) * (py c - py a) - (py b - py a) * (px c - px a) = orient a b c) by reflexivity.
  rewrite EA, H, Rabs_R0. unfold ndiv. rsimp. rewrite Req_bool_true; reflexivity.
Qed.

Lemma triangle_weights_spec a b c p : orient a b c <> 0 ->
  exists u v w, triangle_weights a b c p = Ok (u, v, w) /\ u + v + w = 1 /\ 0 <= v /\ 0 <= w
    /\ (in_triangle a b c p ->
        0 <= u /\ px p = u * px a + v * px b + w * px c /\ py p = u * py a + v * py b + w * py c).
Proof.
  intros Hn. rewrite triangle_weights_eq by auto. cbv zeta.
  set (D := orient a b c) in *.
  assert (HD : 0 < Rabs D) by now apply Rabs_pos_lt.
  assert (HI : 0 < 1 / Rabs D) by (apply Rdiv_lt_0_compat; lra).
  do 3 eexists. split; [reflexivity|]. split; [lra|].
  do 2 (split; [apply Rmult_le_pos; [lra|apply Rabs_pos]|]).
  intros (u & v & w & Hu & Hv & Hw & E & Ex & Ey).
  assert (E1 : orient a b p = w * D).
  { unfold D, orient. rewrite Ex, Ey. replace u with (1 - v - w) by lra. ring. }
  assert (E3 : orient c a p = v * D).
  { unfold D, orient. rewrite Ex, Ey. replace w with (1 - u - v) by lra. ring. }
  rewrite E1, E3, !Rabs_mult, (Rabs_pos_eq w), (Rabs_pos_eq v) by auto.
  replace (1 / Rabs D * (w * Rabs D)) with w by (field; lra).
  replace (1 / Rabs D * (v * Rabs D)) with v by (field; lra).
  replace (1 - v - w) with u by lra. auto.
Qed.

(** ** point_in_triangle (C42) *)
Lemma point_in_triangle_inside a b c p tol : orient a b c <> 0 ->
  inside_triangle a b c p -> point_in_triangle p a b c tol = true.
Proof.
  intros Hn Hi. unfold point_in_triangle, cross_product, to_vector. rsimp.
  assert (H : Rlt_bool 0 (orient a b p) = Rlt_bool 0 (orient b c p)
            /\ Rlt_bool 0 (orient b c p) = Rlt_bool 0 (orient c a p)).
  { destruct (Rtotal_order (orient a b c) 0) as [Hs|[Hs|Hs]]; [|lra|].
    - destruct (inside_triangle_orient _ _ _ _ Hi (-1)) as (H1 & H2 & H3); [lra|].
      rewrite !Rlt_bool_false by lra. auto.
    - destruct (inside_triangle_orient _ _ _ _ Hi 1) as (H1 & H2 & H3); [lra|].
      rewrite !Rlt_bool_true by lra. auto. }
  unfold orient in H. destruct H as [-> ->]. rewrite !eqb_reflx. reflexivity.
Qed.

Lemma point_in_triangle_sound a b c p tol : 0 <= tol -> orient a b c <> 0 ->
  point_in_triangle p a b c tol = true ->
  in_triangle a b c p \/ near_segment (2 * tol) a b p \/ near_segment (2 * tol) b c p
  \/ near_segment (2 * tol) c a p.
Proof.
  intros Ht Hn H. unfold point_in_triangle in H.
  assert (E : forall u v, cross_product (to_vector u v) (to_vector u p) = orient u v p) by reflexivity.
  rewrite !E in H. rsimp.
  match type of H with (if ?x then _ else _) = _ => destruct x eqn:Es end.
  - left. apply andb_prop in Es. destruct Es as [E1 E2]. apply eqb_prop in E1, E2.
    pose proof (orient_sum a b c p) as Hs.
    destruct (Rlt_bool 0 (orient a b p)) eqn:Ea; symmetry in E1; rewrite E1 in E2; symmetry in E2; rb.
    + apply (orient_in_triangle a b c p Hn 1); lra.
    + apply (orient_in_triangle a b c p Hn (-1)); lra.
  - right. apply orb_true_iff in H. destruct H as [H|H]; [apply orb_true_iff in H; destruct H as [H|H]|];
      apply andb_prop in H; destruct H as [H1 H2]; [left|right; left|right; right];
      eapply near_edge_near; eauto.
Qed.

(** without the non-degeneracy hypothesis a far away point passes *)
Lemma point_in_triangle_degenerate tol : exists a b c p,
  point_in_triangle p a b c tol = true /\ a <> b /\ b <> c /\ c <> a
  /\ forall q, in_triangle a b c q -> 100 <= dist2 p q.
Proof.
  exists (Pt 0 0), (Pt 1 0), (Pt 2 0), (Pt 20 0).
  split.
  - unfold point_in_triangle, cross_product, to_vector. rsimp.
    rewrite !Rlt_bool_false by lra. reflexivity.
  - do 3 (split; [intros E; inversion E; lra|]).
    intros q (u & v & w & Hu & Hv & Hw & E & Ex & Ey). cbn in Ex, Ey. unfold dist2. cbn.
    assert (px q <= 2) by lra. assert (py q = 0) by lra. nra.
Qed.
