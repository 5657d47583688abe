(** Property theorems over exact reals: Wachspress weights (C31). *)
From Verif Require Import RBase MUtils MGeometry MAlgorithms MQuery MCelltree SpecTree SpecQuery SpecApi PMesh PInit PBuild PQuery PPoints PTreeFacts PApi
  NumSub SpecPoly SpecMesh GTriangle GConvex GHull GRay GCcw GBuild GFaces PropSmall Examples PropEdges PropPoints GWach.
Open Scope R_scope.

(** p is closer than [tol] to the line through u and v *)
Definition line_near (tol : R) (u v p : pt) : Prop :=
  orient u v p * orient u v p < (tol * tol) * dist2 v u.

Lemma within_iff p tol u v : within p tol u v = true <-> line_near tol u v p.
Proof.
  unfold within, within_perpendicular_distance, line_near, length_squared, to_vector, dist2. rsimp.
  replace (Rabs (orient u v p) * Rabs (orient u v p)) with (orient u v p * orient u v p)
    by (rewrite <- Rabs_mult; symmetry; apply Rabs_pos_eq; apply Rle_0_sqr).
  replace (tol * ((px v - px u) * (px v - px u) + (py v - py u) * (py v - py u)) * tol)
    with (tol * tol * ((px v - px u) * (px v - px u) + (py v - py u) * (py v - py u))) by ring.
  split; intros H; [rb; auto|now apply Rlt_bool_true].
Qed.
Lemma within_cases p tol u v : within p tol u v = true \/ within p tol u v = false.
Proof. destruct (within p tol u v); auto. Qed.
Lemma some_within p tol poly :
  (exists u v, In (u, v) (poly_edges poly) /\ within p tol u v = true)
  \/ (forall u v, In (u, v) (poly_edges poly) -> within p tol u v = false).
Proof.
  induction (poly_edges poly) as [|[u v] es [IH|IH]].
  - right. intros u v [].
  - left. destruct IH as (u' & v' & H & Hw). exists u', v'. split; [now right|auto].
  - destruct (within_cases p tol u v) as [H|H].
    + left. exists u, v. split; [now left|auto].
    + right. intros u' v' [E|E]; [now inversion E; subst|auto].
Qed.

Lemma combine_more {A B} : forall (ws : list A) r (vs : list B), length ws = length vs -> combine (ws ++ r) vs = combine ws vs.
Proof. induction ws as [|w ws IH]; intros r [|v vs] E; try discriminate; cbn; [now destruct r|]. rewrite IH; auto. Qed.

(** ** C31 *)

(** inside, away from the sides: positive weights that sum to one and
    reproduce the point; entries beyond the polygon are untouched *)
Theorem C31_wachspress_inside poly p tol row : convex_ccw poly -> open_hull poly p ->
  (forall u v, In (u, v) (poly_edges poly) -> ~ line_near tol u v p) -> (length poly <= length row)%nat ->
  exists ws, wachspress_weights poly p row tol = Ok (ws ++ skipn (length poly) row)
    /\ length ws = length poly /\ Forall (fun w => 0 < w) ws /\ sumR ws = 1 /\ comb ws poly = p.
Proof.
  intros HC HI HN Hl. apply wachspress_inside; auto.
  - now apply interior_open_hull.
  - intros u v H. destruct (within_cases p tol u v) as [E|E]; auto. apply within_iff in E. destruct (HN u v H E).
Qed.

(** close to the line of a side: only the two ends of such a side have a
    weight; they interpolate by the distance from the first end *)
Theorem C31_wachspress_edge poly p tol row : NoDup poly -> (2 <= length poly)%nat -> 0 < tol ->
  (length poly <= length row)%nat ->
  (exists u v, In (u, v) (poly_edges poly) /\ line_near tol u v p) ->
  exists ws u v k k' w, wachspress_weights poly p row tol = Ok ws
    /\ In (u, v) (poly_edges poly) /\ line_near tol u v p
    /\ nth_error poly k = Some u /\ nth_error poly k' = Some v
    /\ 0 <= w /\ w * w * dist2 v u = dist2 p u
    /\ nth_error ws k = Some (1 - w) /\ nth_error ws k' = Some w
    /\ (forall i x, i <> k -> i <> k' -> nth_error ws i = Some x -> x = 0)
    /\ length ws = length row /\ sumR ws = 1 /\ comb ws poly = at_ u v w
    /\ (on_segment u v p -> w <= 1 /\ at_ u v w = p).
Proof.
  intros HN Hn Ht Hl (u0 & v0 & H0 & W0).
  destruct (wachspress_edge p tol poly row HN Hn Hl Ht) as (u & v & k & k' & He & Hw & Hu & Hv & Hk & E).
  { exists u0, v0. split; auto. now apply within_iff. }
  assert (Hne : u <> v) by (eapply edges_neq; eauto).
  assert (K : (k < length row)%nat) by (assert (k < length poly)%nat by (apply nth_error_Some; congruence); lia).
  assert (K' : (k' < length row)%nat) by (assert (k' < length poly)%nat by (apply nth_error_Some; congruence); lia).
  set (w := sqrt (dist2 p u) / sqrt (dist2 v u)) in *.
  destruct (two_spec (length row) k k' w poly u v K K' Hk Hu Hv) as (L & S & C & N1 & N2 & N3).
  assert (P : forall a b, 0 <= dist2 a b).
  { intros a b. unfold dist2. pose proof (Rle_0_sqr (px a - px b)). pose proof (Rle_0_sqr (py a - py b)). unfold Rsqr in *. lra. }
  assert (P1 : 0 < dist2 v u).
  { destruct (P v u) as [H|H]; auto. destruct Hne. unfold dist2 in H.
    pose proof (Rle_0_sqr (px v - px u)) as A1. pose proof (Rle_0_sqr (py v - py u)) as A2. unfold Rsqr in *.
    assert (B1 : (px v - px u) * (px v - px u) = 0) by lra. assert (B2 : (py v - py u) * (py v - py u) = 0) by lra.
    apply Rmult_integral in B1. apply Rmult_integral in B2. apply pt_eq; lra. }
  assert (P2 : 0 < sqrt (dist2 v u)) by (now apply sqrt_lt_R0).
  exists (two (length row) k k' w), u, v, k, k', w.
  split; auto. split; auto. split; [now apply within_iff|]. split; auto. split; auto.
  split. { apply Rmult_le_pos; [apply sqrt_pos|left; now apply Rinv_0_lt_compat]. }
  split.
  { unfold w. replace (dist2 p u) with (sqrt (dist2 p u) * sqrt (dist2 p u)) at 3 by (apply sqrt_def, P).
    rewrite <- (sqrt_def (dist2 v u)) at 3 by apply P. field. lra. }
  split; auto. split; auto. split.
  { intros i x Hi Hi' Hx. assert (i < length row)%nat by (rewrite <- L; apply nth_error_Some; congruence).
    rewrite N3 in Hx by auto. congruence. }
  split; auto. split; auto. split; auto.
  intros Ho. destruct (edge_weight p u v Hne Ho) as (B & Eat). split; [apply B|auto].
Qed.

(** For every point of a strictly convex polygon, provided that a side whose
    line is within the tolerance contains the point *)
Theorem C31_wachspress_convex poly p tol m : convex_ccw poly -> hull poly p -> 0 < tol -> (length poly <= m)%nat ->
  (forall u v, In (u, v) (poly_edges poly) -> line_near tol u v p -> on_segment u v p) ->
  exists ws, wachspress_weights poly p (repeat 0 m) tol = Ok ws /\ length ws = m
    /\ Forall (fun w => 0 <= w) ws /\ sumR ws = 1 /\ comb ws poly = p
    /\ (forall i x, (length poly <= i)%nat -> nth_error ws i = Some x -> x = 0).
Proof.
  intros HC Hh Ht Hm HN. destruct (some_within p tol poly) as [(u0 & v0 & H0 & W0)|HW].
  - destruct HC as (Hl & HD & HO).
    destruct (C31_wachspress_edge poly p tol (repeat 0 m) HD ltac:(lia) Ht) as
      (ws & u & v & k & k' & w & E & He & Hw & Hu & Hv & W1 & _ & N1 & N2 & N3 & L & S & C & Ho).
    { now rewrite repeat_length. }
    { exists u0, v0. split; auto. now apply within_iff. }
    rewrite repeat_length in L. destruct (Ho (HN u v He Hw)) as (W2 & Eat).
    exists ws. split; auto. split; auto. split; [|split; [auto|split; [congruence|]]].
    + apply Forall_forall. intros x Hx. apply In_nth_error in Hx as (i & Hi).
      destruct (Nat.eq_dec i k) as [->|D1]; [rewrite N1 in Hi; inversion Hi; lra|].
      destruct (Nat.eq_dec i k') as [->|D2]; [rewrite N2 in Hi; inversion Hi; lra|].
      rewrite (N3 i x D1 D2 Hi). lra.
    + intros i x Hi Hx. apply (N3 i x); auto; intros ->.
      * assert (k < length poly)%nat by (apply nth_error_Some; congruence). lia.
      * assert (k' < length poly)%nat by (apply nth_error_Some; congruence). lia.
  - assert (HI : interior poly p).
    { pose proof (proj2 (in_poly_hull poly p HC) Hh) as Hp. destruct (in_poly_cases poly p Hp) as [Hi|(u & v & He & Ho)]; auto.
      exfalso. apply (not_within_nonzero p tol u v); auto. destruct HC as (Hl & HD & _). eapply edges_neq; eauto. lia. }
    destruct (wachspress_inside p tol poly (repeat 0 m) HC) as (ws & E & L & P & S & C); auto.
    { now rewrite repeat_length. }
    assert (Es : skipn (length poly) (repeat 0 m) = repeat 0 (m - length poly)).
    { replace m with (length poly + (m - length poly))%nat at 1 by lia. rewrite repeat_app.
      rewrite skipn_app, repeat_length, Nat.sub_diag. cbn [skipn].
      rewrite skipn_all2 by (rewrite repeat_length; lia). reflexivity. }
    rewrite Es in E. exists (ws ++ repeat 0 (m - length poly)). split; auto.
    split; [rewrite app_length, repeat_length; lia|].
    split; [apply Forall_app; split; [eapply Forall_impl; [|exact P]; cbv beta; intros; lra|]|].
    { apply Forall_forall. intros x Hx. apply repeat_spec in Hx. lra. }
    split; [rewrite sumR_app, sumR_repeat0; lra|]. split.
    + rewrite <- C. unfold comb. rewrite combine_more by auto. reflexivity.
    + intros i x Hi Hx. rewrite nth_error_app2 in Hx by lia. apply nth_error_In, repeat_spec in Hx. auto.
Qed.

(** A point beside a side: the interpolated position is off by at most sqrt(2)
    times the tolerance if the point lies ahead of the first end of the side *)
Theorem C31_edge_error u v p w tol : 0 <= tol -> line_near tol u v p -> u <> v -> 0 <= w -> w * w * dist2 v u = dist2 p u ->
  0 <= (px p - px u) * (px v - px u) + (py p - py u) * (py v - py u) ->
  dist2 (at_ u v w) p <= 2 * (tol * tol).
Proof.
  intros Ht Hn Hne Hw Ew Hd. unfold line_near in Hn.
  assert (P : 0 < dist2 v u).
  { destruct (Rle_0_sqr (px v - px u)) as [A|A], (Rle_0_sqr (py v - py u)) as [B|B]; unfold Rsqr, dist2 in *; try lra.
    destruct Hne. symmetry in A, B. apply Rmult_integral in A. apply Rmult_integral in B. apply pt_eq; lra. }
  set (L := dist2 v u) in *. set (s := (px p - px u) * (px v - px u) + (py p - py u) * (py v - py u)) in *.
  set (d := orient u v p) in *.
  assert (E1 : s * s + d * d = L * dist2 p u) by (unfold s, d, L, orient, dist2; ring).
  assert (E2 : L * dist2 (at_ u v w) p = (w * L - s) * (w * L - s) + d * d).
  { unfold s, d, L, orient, dist2, at_. cbn [px py]. ring. }
  assert (E3 : (w * L) * (w * L) = s * s + d * d) by (rewrite E1, <- Ew; ring).
  assert (H1 : s <= w * L) by (apply Rsqr_incr_0_var; [unfold Rsqr; pose proof (Rle_0_sqr d) as Q; unfold Rsqr in Q; lra|apply Rmult_le_pos; lra]).
  assert (H2 : (w * L - s) * (w * L - s) <= d * d).
  { assert (0 <= (w * L - s) * (2 * s)) by (apply Rmult_le_pos; lra). nra. }
  apply (Rmult_le_reg_l L); auto. rewrite E2. nra.
Qed.

(** ** The whole query *)
Lemma Forall2_nth_r {A B} (P : A -> B -> Prop) l l' k b : Forall2 P l l' -> nth_error l' k = Some b ->
  exists a, nth_error l k = Some a /\ P a b.
Proof. intros H. revert k. induction H as [|x y l l' HP HF IH]; intros [|k] E; try discriminate; cbn in *; [inversion E; subst; eauto|eauto]. Qed.
Lemma Forall2_nth_intro {A B} (P : A -> B -> Prop) : forall l l', length l = length l' ->
  (forall k a b, nth_error l k = Some a -> nth_error l' k = Some b -> P a b) -> Forall2 P l l'.
Proof.
  induction l as [|x l IH]; intros [|y l'] E H; try discriminate; constructor; [apply (H O); reflexivity|].
  apply IH; [now inversion E|]. intros k a b Ha Hb. apply (H (S k)); auto.
Qed.
Lemma nth_combine {A B} : forall (l : list A) (l' : list B) k a b, nth_error l k = Some a -> nth_error l' k = Some b ->
  nth_error (combine l l') k = Some (a, b).
Proof. induction l as [|x l IH]; intros [|y l'] [|k] a b Ha Hb; try discriminate; cbn in *; [congruence|eauto]. Qed.

Lemma near_or_interior poly p tol : convex_ccw poly -> 0 < tol -> point_in_polygon_or_on_edge p poly tol = Ok true ->
  (exists u v, In (u, v) (poly_edges poly) /\ within p tol u v = true)
  \/ (interior poly p /\ forall u v, In (u, v) (poly_edges poly) -> within p tol u v = false).
Proof.
  intros HC Ht H. destruct (some_within p tol poly) as [HW|HW]; auto. right. split; auto.
  pose proof HC as (Hl & HD & _).
  assert (Hne : poly <> []) by (destruct poly; [cbn in Hl; lia|discriminate]).
  rewrite pip_or_edge_eq in H by auto.
  destruct (existsb (nearb p tol) (poly_edges poly)) eqn:En.
  - exfalso. apply existsb_exists in En as ((u, v) & He & Hn). specialize (HW u v He).
    unfold nearb in Hn. cbn [fst snd] in Hn. rewrite GRay.cross_orient in Hn.
    apply andb_prop in Hn as (_ & Hn). apply andb_prop in Hn as (Hn & _).
    unfold within, within_perpendicular_distance in *. rsimp.
    replace (Rabs (orient u v p) * Rabs (orient u v p)) with (orient u v p * orient u v p) in HW
      by (rewrite <- Rabs_mult; symmetry; apply Rabs_pos_eq; apply Rle_0_sqr). congruence.
  - assert (Hp : in_poly poly p) by (apply inside_in_poly; auto; congruence).
    destruct (in_poly_cases poly p Hp) as [Hi|(u & v & He & Ho)]; auto.
    exfalso. apply (not_within_nonzero p tol u v); auto. eapply edges_neq; eauto. lia.
Qed.

Lemma as_triangle_ok (vs : list pt) f a b c : poly_of vs f [a; b; c] -> as_triangle vs f = Ok (a, b, c).
Proof.
  unfold poly_of. intros H. inversion H as [|i1 ? l1 ? (A1 & B1) H1 E1]; subst. inversion H1 as [|i2 ? l2 ? (A2 & B2) H2 E2]; subst.
  inversion H2 as [|i3 ? l3 ? (A3 & B3) H3 E3]; subst. inversion H3; subst.
  assert (Hf : exists r, f = i1 :: i2 :: i3 :: r).
  { destruct f as [|x1 [|x2 [|x3 r]]]; cbn in E1; repeat (destruct (_ =? _)%Z; [discriminate|]); try discriminate.
    inversion E1. eauto. }
  destruct Hf as (r & ->). unfold as_triangle.
  replace (aget (i1 :: i2 :: i3 :: r) 0%Z) with (Ok i1) by (symmetry; apply (aget_nat _ 0); reflexivity). cbn [bind].
  replace (aget vs i1) with (Ok a) by (symmetry; rewrite <- (Z2Nat.id i1) by lia; apply aget_nat; auto). cbn [bind].
  replace (aget (i1 :: i2 :: i3 :: r) 1%Z) with (Ok i2) by (symmetry; apply (aget_nat _ 1); reflexivity). cbn [bind].
  replace (aget vs i2) with (Ok b) by (symmetry; rewrite <- (Z2Nat.id i2) by lia; apply aget_nat; auto). cbn [bind].
  replace (aget (i1 :: i2 :: i3 :: r) 2%Z) with (Ok i3) by (symmetry; apply (aget_nat _ 2); reflexivity). cbn [bind].
  replace (aget vs i3) with (Ok c) by (symmetry; rewrite <- (Z2Nat.id i3) by lia; apply aget_nat; auto). reflexivity.
Qed.

(** On a mesh of strictly convex faces with at most [n] vertices per face the
    query succeeds.  The row of a located point sums to one; it reproduces the
    point with non-negative weights if the point is in the face and on every
    side whose line is within the tolerance. *)
Theorem C31_compute_barycentric_weights g vs faces fill nb cpl (t : tree2d (T:=R)) :
  mesh_ok vs faces fill -> convex_mesh vs faces fill -> CellTree2d_init g vs faces fill nb cpl = Ok t ->
  forall g' n points tolerance tol, (3 <= n)%nat -> Forall (fun f => (length f <= n)%nat) faces ->
  get_tolerance t tolerance = Ok tol -> 0 < tol ->
  exists js rows, CellTree2d_compute_barycentric_weights g' t n points tolerance = Ok (js, rows)
    /\ CellTree2d_locate_points g' t points tolerance = Ok js /\ length rows = length points
    /\ forall k p j row, nth_error points k = Some p -> nth_error js k = Some j -> nth_error rows k = Some row -> j <> (-1)%Z ->
         exists f poly, nth_error (elements (celltree_data t)) (Z.to_nat j) = Some f /\ poly_of vs f poly /\ convex_ccw poly
           /\ length row = n /\ sumR row = 1
           /\ (hull poly p ->
               (forall u v, In (u, v) (poly_edges poly) -> line_near tol u v p -> on_segment u v p) ->
               Forall (fun w => 0 <= w) row /\ comb row poly = p).
Proof.
  intros Hm Hc E g' n points tolerance tol Hn Hw Et Ht.
  pose proof (init_built _ _ _ _ _ _ _ Hm E) as Hb.
  destruct (points_result _ _ _ _ t tolerance Hb) as (tol' & Et' & H). rewrite Et in Et'. apply Ok_inj in Et'. subst tol'.
  destruct (H points) as (js & Hj & HF). clear H.
  set (P := fun (p : pt) (j : Z) (row : list R) => (j <> -1)%Z ->
         exists f poly, nth_error (elements (celltree_data t)) (Z.to_nat j) = Some f /\ poly_of vs f poly /\ convex_ccw poly
           /\ length row = n /\ sumR row = 1
           /\ (hull poly p ->
               (forall u v, In (u, v) (poly_edges poly) -> line_near tol u v p -> on_segment u v p) ->
               Forall (fun w => 0 <= w) row /\ comb row poly = p)).
  set (one := fun pj : pt * Z => if (3 <? n)%nat then barycentric_wachspress_one g' n (elements (celltree_data t)) (vertices (celltree_data t)) tol pj
              else barycentric_triangle_one (elements (celltree_data t)) (vertices (celltree_data t)) pj).
  assert (HO : forall p j, point_answer (face_passes (celltree_data t) p tol) t p j -> exists row, one (p, j) = Ok row /\ P p j row).
  { intros p j HA. destruct HA as [(f' & poly' & H0 & En & Hp' & Hpass)|(-> & _)].
    2:{ unfold one, barycentric_wachspress_one, barycentric_triangle_one. cbn [Z.eqb Z.opp].
        destruct (3 <? n)%nat; eexists; (split; [reflexivity|intros X; congruence]). }
    destruct (stored_back _ _ _ _ _ _ _ _ _ Hm E H0 En) as (poly & Hpoly).
    destruct (stored_poly _ _ _ _ _ _ _ _ _ Hm Hc E Hpoly) as (f2 & poly2 & b & _ & En2 & _ & Hp2 & Hcc & Ho & _).
    rewrite En in En2. inversion En2; subst f2.
    rewrite (bt_vertices _ _ _ _ _ Hb) in Hp'. assert (poly2 = poly') by (eapply poly_of_unique; eauto). subst poly2.
    assert (Hlen : (length poly' <= n)%nat).
    { pose proof (Forall2_nth_r _ _ _ _ _ (bt_elements _ _ _ _ _ Hb) En) as (f0 & En0 & Hsame).
      assert (El : length (until_fill f') = length (until_fill f0)).
      { destruct Hsame as (_ & [->| ->]); auto. apply rev_length. }
      rewrite (poly_of_length _ _ _ Hp'), El. apply nth_error_In in En0. apply in_map_iff in En0 as (f1 & <- & Hf1).
      rewrite Forall_forall in Hw. specialize (Hw f1 Hf1).
      eapply Nat.le_trans; [apply until_fill_length|]. unfold with_fill. rewrite map_length. exact Hw. }
    assert (Hwf : wf_face (length vs) f').
    { pose proof (mt_faces _ (bt_mesh _ _ _ _ _ Hb)) as Hwf. rewrite (bt_vertices _ _ _ _ _ Hb) in Hwf.
      rewrite Forall_forall in Hwf. apply Hwf. eapply nth_error_In; eauto. }
    assert (Ej : aget (elements (celltree_data t)) j = Ok f') by (rewrite <- (Z2Nat.id j) by lia; now apply aget_nat).
    assert (Nj : (j =? -1)%Z = false) by (apply Z.eqb_neq; lia).
    unfold one. destruct (3 <? n)%nat eqn:E3.
    - unfold barycentric_wachspress_one. rewrite Nj, Ej. cbn [bind]. rewrite (bt_vertices _ _ _ _ _ Hb).
      rewrite (copy_vertices_ok _ _ _ _ Hwf Hp'). cbn [bind]. change (nofZ 0) with 0.
      destruct (near_or_interior poly' p tol Hcc Ht Hpass) as [HW|(HI & HW)].
      + destruct Hcc as (Hl & HD & HO).
        destruct (C31_wachspress_edge poly' p tol (repeat 0 n) HD ltac:(lia) Ht) as
          (ws & u & v & k & k' & w & Ew & He & Hwn & Hu & Hv & W1 & _ & N1 & N2 & N3 & L & S & C & Hon).
        { now rewrite repeat_length. }
        { destruct HW as (u & v & A & B). exists u, v. split; auto. now apply within_iff. }
        rewrite repeat_length in L. exists ws. split; auto. intros _. exists f', poly'.
        split; auto. split; auto. split; [split; auto|]. split; auto. split; auto.
        intros Hh HN. destruct (C31_wachspress_convex poly' p tol n ltac:(split; auto) Hh Ht Hlen HN) as (ws' & Ew' & _ & A & _ & B & _).
        rewrite Ew in Ew'. apply Ok_inj in Ew'. subst ws'. auto.
      + assert (Hh : hull poly' p) by (apply open_hull_hull, interior_open_hull; auto).
        destruct (C31_wachspress_convex poly' p tol n Hcc Hh Ht Hlen) as (ws & Ew & L & A & S & B & _).
        { intros u v Huv Hnr. apply within_iff in Hnr. rewrite HW in Hnr by auto. discriminate. }
        exists ws. split; auto. intros _. exists f', poly'. repeat (split; auto).
    - apply Nat.ltb_ge in E3. assert (n = 3)%nat by lia. subst n.
      unfold barycentric_triangle_one. rewrite Nj, Ej. cbn [bind]. rewrite (bt_vertices _ _ _ _ _ Hb).
      pose proof Hcc as (Hl & HD & HO).
      destruct poly' as [|a [|b' [|c [|]]]]; cbn in Hl, Hlen; try lia.
      rewrite (as_triangle_ok _ _ _ _ _ Hp'). cbn [bind].
      assert (Ho3 : 0 < orient a b' c).
      { apply HO; [right; left; reflexivity|right; right; now left| |]; intros ->; inversion HD as [|? ? X1 X2]; subst.
        - apply X1. right. now left.
        - inversion X2 as [|? ? X3 X4]; subst. apply X3. now left. }
      destruct (C30_triangle_weights a b' c p ltac:(lra)) as (u & v & w & Ew & S & Hin).
      rewrite Ew. cbn [bind]. exists [u; v; w]. split; auto. intros _. exists f', [a; b'; c].
      split; auto. split; auto. split; auto. split; auto. split; [cbn; lra|].
      intros Hh _. destruct Hin as (A1 & A2 & A3 & Ep).
      { destruct Hh as (ws & L & HP & HS & Ep). destruct ws as [|x [|y [|z [|]]]]; try discriminate.
        inversion HP as [|? ? Q1 HP1]; subst. inversion HP1 as [|? ? Q2 HP2]; subst. inversion HP2 as [|? ? Q3 _]; subst.
        exists x, y, z. cbn in HS. repeat split; auto; try lra; cbn; ring. }
      split; [do 3 (apply Forall_cons; [assumption|]); apply Forall_nil|]. etransitivity; [|symmetry; exact Ep]. unfold comb. cbn. f_equal; ring. }
  assert (HR : exists rows, Forall2 (fun pj row => one pj = Ok row /\ P (fst pj) (snd pj) row) (combine points js) rows).
  { pose proof (F2_length _ _ _ HF) as Hl. clear - HO HF. induction HF as [|p j ps js' HA HF IH]; [exists []; constructor|].
    destruct (HO p j HA) as (row & A & B). destruct IH as (rows & IH). exists (row :: rows). constructor; auto. }
  destruct HR as (rows & HR). exists js, rows.
  pose proof (F2_length _ _ _ HF) as Hl.
  assert (Hlr : length rows = length points).
  { rewrite <- (F2_length _ _ _ HR), combine_length. lia. }
  assert (HM : mapres (fun i => let* f := aget js i in let* p := aget points i in one (p, f)) (iota (length points)) = Ok rows).
  { apply PCollect.mapres_ok. apply Forall2_nth_intro; [now rewrite iota_length|].
    intros k i row Hi Hr.
    assert (Hk : (k < length points)%nat) by (rewrite <- Hlr; apply nth_error_Some; congruence).
    rewrite iota_nth in Hi by auto. inversion Hi; subst i.
    destruct (nth_error points k) as [p|] eqn:Ep; [|apply nth_error_None in Ep; lia].
    destruct (nth_error js k) as [j|] eqn:Ej; [|apply nth_error_None in Ej; lia].
    rewrite (aget_nat _ _ _ Ej). cbn [bind]. rewrite (aget_nat _ _ _ Ep). cbn [bind].
    assert (Ec : nth_error (combine points js) k = Some (p, j)) by (now apply nth_combine).
    destruct (Forall2_nth _ _ _ _ _ _ HR Ec Hr) as (A & _). exact A. }
  split.
  { unfold CellTree2d_compute_barycentric_weights. rewrite Et. cbn [bind].
    pose proof (Hj g') as Hjg. unfold CellTree2d_locate_points in *. rewrite Et in Hjg. cbn [bind get_tolerance] in *. rewrite Hjg. cbn [bind].
    unfold barycentric_wachspress_weights, barycentric_triangle_weights. revert HM. unfold one.
    destruct (3 <? n)%nat; intros ->; reflexivity. }
  split; auto. split; auto.
  intros k p j row Ep Ej Er Hne.
  assert (Ec : nth_error (combine points js) k = Some (p, j)) by (now apply nth_combine).
  destruct (Forall2_nth _ _ _ _ _ _ HR Ec Er) as (_ & B). apply B; auto.
Qed.

(** ** Where the interpolation goes wrong *)
Lemma first_side v0 l p row tol : last l v0 <> v0 -> (length (v0 :: l) <= length row)%nat -> line_near tol (last l v0) v0 p ->
  wachspress_weights (v0 :: l) p row tol
  = Ok (two (length row) (length l) 0 (sqrt (dist2 p (last l v0)) / sqrt (dist2 v0 (last l v0)))).
Proof.
  intros Hne Hr Hn. unfold wachspress_weights. rewrite last_vertex. cbn [bind].
  change (aget (v0 :: l) 0%Z) with (Ok (A:=pt) v0). cbn [bind].
  change (nabs (cross_product (to_vector (last l v0) v0) (to_vector (last l v0) p)))
    with (Rabs (cross_product (T:=R) (to_vector (last l v0) v0) (to_vector (last l v0) p))).
  rewrite GWach.cross_orient. fold (within p tol (last l v0) v0).
  rewrite (proj2 (within_iff p tol (last l v0) v0) Hn).
  replace (zlen (v0 :: l) - 1)%Z with (Z.of_nat (length l)) by (unfold zlen; cbn [length]; lia).
  change 0%Z with (Z.of_nat 0). cbn [length] in Hr. rewrite interp_ok by (auto; lia). reflexivity.
Qed.

(** The perpendicular distance to the line of a side says nothing about the
    distance to the side.  At a nearly straight corner an interior point is
    given the weights of a position far away, at every tolerance. *)
Theorem C31_flat_corner_refuted tol : 0 < tol -> exists poly p ws,
  convex_ccw poly /\ open_hull poly p /\ wachspress_weights poly p (repeat 0 (length poly)) tol = Ok ws
  /\ / 4 <= dist2 (comb ws poly) p.
Proof.
  intros Ht. set (e := Rmin tol 1 / 2).
  assert (He : 0 < e <= / 2 /\ 2 * e <= tol).
  { unfold e. pose proof (Rmin_l tol 1). pose proof (Rmin_r tol 1). assert (0 < Rmin tol 1) by (apply Rmin_pos; lra). lra. }
  set (poly := [Pt 2 0; Pt 2 2; Pt 0 2; Pt 0 0; Pt 1 (- e)]). set (p := Pt (/ 2) 0).
  assert (HC : convex_ccw poly).
  { unfold poly. destruct He as (He & _). convex_check. }
  set (w := sqrt (dist2 p (Pt 1 (- e))) / sqrt (dist2 (Pt 2 0) (Pt 1 (- e)))).
  assert (Hw : 0 <= w).
  { apply Rmult_le_pos; [apply sqrt_pos|]. left. apply Rinv_0_lt_compat, sqrt_lt_R0. unfold dist2. cbn [px py].
    pose proof (Rle_0_sqr (0 - - e)) as Q. unfold Rsqr in Q. lra. }
  exists poly, p, (two 5 4 0 w). split; auto. split.
  { apply interior_open_hull; auto. intros u v Huv. cbn in Huv. unfold p.
    repeat destruct Huv as [Huv|Huv]; try contradiction; inversion Huv; subst u v; unfold orient; cbn [px py]; lra. }
  split.
  { unfold poly. rewrite first_side.
    - reflexivity.
    - cbn. intros Hx. inversion Hx. lra.
    - rewrite repeat_length. auto.
    - cbn [last]. unfold line_near, orient, dist2, p. cbn [px py].
      assert (e * e <= tol * tol / 4) by nra.
      assert (0 <= tol * tol * (e * e)) by (apply Rmult_le_pos; nra). nra. }
  destruct (two_spec 5 4 0 w poly (Pt 1 (- e)) (Pt 2 0)) as (_ & _ & C & _); auto; try lia.
  rewrite C. unfold dist2, at_, p. cbn [px py].
  pose proof (Rle_0_sqr (- e + w * (0 - - e) - 0)) as Q. unfold Rsqr in Q.
  assert (/ 2 * / 2 <= (1 + w * (2 - 1) - / 2) * (1 + w * (2 - 1) - / 2)) by (apply Rmult_le_compat; lra). lra.
Qed.

(** with a vertex inside a straight side (a hanging node), a point of that side
    gets a negative weight *)
Theorem C31_hanging_node_refuted tol : 0 < tol -> exists poly p ws,
  (forall u v w, In (u, v) (poly_edges poly) -> In w poly -> 0 <= orient u v w) /\ NoDup poly
  /\ (exists u v, In (u, v) (poly_edges poly) /\ on_segment u v p)
  /\ wachspress_weights poly p (repeat 0 (length poly)) tol = Ok ws
  /\ In (- / 2) ws.
Proof.
  intros Ht. set (poly := [Pt 1 0; Pt 2 0; Pt 2 2; Pt 0 2; Pt 0 0]). set (p := Pt (3 / 2) 0).
  set (w := sqrt (dist2 p (Pt 0 0)) / sqrt (dist2 (Pt 1 0) (Pt 0 0))).
  assert (Ew : w = 3 / 2).
  { unfold w. replace (dist2 p (Pt 0 0)) with (Rsqr (3 / 2)) by (unfold dist2, p, Rsqr; cbn; ring).
    replace (dist2 (Pt 1 0) (Pt 0 0)) with (Rsqr 1) by (unfold dist2, Rsqr; cbn; ring).
    rewrite !sqrt_Rsqr by lra. lra. }
  exists poly, p, (two 5 4 0 w). split; [|split; [|split; [|split]]].
  - intros u v x Huv Hx. unfold poly in *. cbn in Huv, Hx.
    repeat destruct Huv as [Huv|Huv]; try contradiction; inversion Huv; subst u v; clear Huv;
      repeat destruct Hx as [Hx|Hx]; try contradiction; subst x; unfold orient; cbn [px py]; lra.
  - unfold poly. distinct.
  - exists (Pt 1 0), (Pt 2 0). split; [unfold poly; cbn; auto|]. exists (/ 2). split; [lra|].
    unfold p, at_. cbn [px py]. f_equal; lra.
  - unfold poly. rewrite first_side.
    + reflexivity.
    + cbn. intros Hx. inversion Hx. lra.
    + rewrite repeat_length. auto.
    + cbn [last]. unfold line_near, orient, dist2, p. cbn [px py]. nra.
  - destruct (two_spec 5 4 0 w poly (Pt 0 0) (Pt 1 0)) as (_ & _ & _ & N & _); auto; try lia.
    rewrite Ew in *. replace (- / 2) with (1 - 3 / 2) by lra. eapply nth_error_In; eauto.
Qed.

(** ** Concrete cases *)
Example C31_example : exists ws, wachspress_weights [Pt 0 0; Pt 4 0; Pt 5 3; Pt 2 5; Pt (-1) 3] (Pt 2 2) (repeat 0 6) (1 / 1000) = Ok ws
  /\ length ws = 6%nat /\ Forall (fun w => 0 <= w) ws /\ sumR ws = 1 /\ comb ws [Pt 0 0; Pt 4 0; Pt 5 3; Pt 2 5; Pt (-1) 3] = Pt 2 2
  /\ nth_error ws 5 = Some 0.
Proof.
  assert (HC : convex_ccw [Pt 0 0; Pt 4 0; Pt 5 3; Pt 2 5; Pt (-1) 3]) by convex_check.
  destruct (C31_wachspress_convex [Pt 0 0; Pt 4 0; Pt 5 3; Pt 2 5; Pt (-1) 3] (Pt 2 2) (1 / 1000) 6 HC) as (ws & E & L & P & S & C & Z).
  - apply in_poly_hull; auto. intros u v Huv. cbn in Huv.
    repeat destruct Huv as [Huv|Huv]; try contradiction; inversion Huv; subst u v; unfold orient; cbn [px py]; lra.
  - lra.
  - cbn. lia.
  - intros u v Huv Hn. exfalso. cbn in Huv. unfold line_near, orient, dist2 in Hn.
    repeat destruct Huv as [Huv|Huv]; try contradiction; inversion Huv; subst u v; cbn [px py] in Hn; lra.
  - exists ws. do 5 (split; auto). destruct (nth_error ws 5) as [x|] eqn:Ex; [|apply nth_error_None in Ex; lia].
    rewrite (Z 5%nat x ltac:(cbn; lia) Ex). reflexivity.
Qed.

(** on a side *)
Example C31_edge_example : exists ws, wachspress_weights [Pt 0 0; Pt 4 0; Pt 4 4; Pt 0 4] (Pt 1 0) (repeat 0 4) (1 / 1000) = Ok ws
  /\ sumR ws = 1 /\ comb ws [Pt 0 0; Pt 4 0; Pt 4 4; Pt 0 4] = Pt 1 0 /\ Forall (fun w => 0 <= w) ws.
Proof.
  assert (HC : convex_ccw [Pt 0 0; Pt 4 0; Pt 4 4; Pt 0 4]) by convex_check.
  destruct (C31_wachspress_convex [Pt 0 0; Pt 4 0; Pt 4 4; Pt 0 4] (Pt 1 0) (1 / 1000) 4 HC) as (ws & E & L & P & S & C & Z).
  - apply in_poly_hull; auto. intros u v Huv. cbn in Huv.
    repeat destruct Huv as [Huv|Huv]; try contradiction; inversion Huv; subst u v; unfold orient; cbn [px py]; lra.
  - lra.
  - cbn. lia.
  - intros u v Huv Hn. cbn in Huv. unfold line_near, orient, dist2 in Hn.
    repeat destruct Huv as [Huv|Huv]; try contradiction; inversion Huv; subst u v; cbn [px py] in Hn; try (exfalso; lra).
    exists (1 / 4). split; [lra|]. unfold at_. cbn [px py]. f_equal; lra.
  - exists ws. auto.
Qed.

(** the query on the example mesh *)
Example C31_query_example : exists t j row, CellTree2d_init (T:=R) g0 grid grid_faces (-1) 4 2 = Ok t
  /\ CellTree2d_compute_barycentric_weights g0 t 4 [Pt (1/2) (1/4)] (Some (1/1000)) = Ok ([j], [row])
  /\ j <> (-1)%Z /\ sumR row = 1 /\ length row = 4%nat.
Proof.
  destruct C04_example as (t & E). exists t.
  destruct (C31_compute_barycentric_weights _ _ _ _ _ _ _ grid_mesh_R grid_convex E g0 4 [Pt (1/2) (1/4)] (Some (1/1000)) (1/1000))
    as (js & rows & H & Hj & Hl & HR); auto.
  { repeat constructor. }
  { lra. }
  destruct rows as [|row [|]]; try discriminate.
  destruct (C10_locate_points_geometric _ _ _ _ _ _ _ grid_mesh_R grid_convex E g0 [Pt (1/2) (1/4)] (Some (1/1000)))
    as (tol & js' & Et & Hj' & Hl' & HC). rewrite Hj in Hj'. apply Ok_inj in Hj'. subst js'.
  cbn in Et. apply Ok_inj in Et. subst tol.
  destruct js as [|j [|]]; try discriminate.
  assert (Hne : j <> (-1)%Z).
  { destruct (HC 0%nat _ j eq_refl eq_refl ltac:(lra)) as (_ & H2 & _).
    apply (H2 0%Z [ptZ (0, 0); ptZ (1, 0); ptZ (1, 1); ptZ (0, 1)]%Z).
    - exists [0; 1; 5; 4]%Z. split; [lia|]. split; [reflexivity|]. unfold poly_of. cbn. repeat constructor; auto; lia.
    - exists [3/8; 3/8; 1/8; 1/8]. split; [reflexivity|]. split; [repeat constructor; lra|]. split; [cbn; lra|].
      apply pt_eq; cbn; lra. }
  destruct (HR 0%nat _ j row eq_refl eq_refl eq_refl Hne) as (f & poly & _ & _ & _ & L & S & _).
  exists j, row. auto.
Qed.

Print Assumptions C31_wachspress_inside.
Print Assumptions C31_wachspress_edge.
Print Assumptions C31_wachspress_convex.
Print Assumptions C31_edge_error.
Print Assumptions C31_compute_barycentric_weights.
Print Assumptions C31_flat_corner_refuted.
Print Assumptions C31_hanging_node_refuted.
