(** Areas of polygons over exact reals: rotation, reversal, fans, uniqueness. *)
From Verif Require Import RBase MGeometry SpecPoly GTriangle GConvex GHull.
From Coq Require Import Permutation.
Open Scope R_scope.

(** ** Rotations *)
Lemma last_app_ne {A} (l1 l2 : list A) d : l2 <> [] -> last (l1 ++ l2) d = last l2 d.
Proof.
  intros H. destruct (exists_last H) as (m & x & ->). rewrite app_assoc, !last_last. reflexivity.
Qed.
Lemma last_default {A} (l : list A) d d' : l <> [] -> last l d = last l d'.
Proof. intros H. destruct l as [|x l]; [congruence|]. now rewrite !last_cons. Qed.

Lemma edges_app l1 l2 : l1 <> [] -> l2 <> [] ->
  poly_edges (l1 ++ l2) = chain (last l2 (Pt 0 0)) l1 ++ chain (last l1 (Pt 0 0)) l2.
Proof.
  intros H1 H2. unfold poly_edges. rewrite chain_app, last_app_ne by auto.
  now rewrite (last_default l1 _ (Pt 0 0) H1).
Qed.
Lemma edges_rot l1 l2 : Permutation (poly_edges (l1 ++ l2)) (poly_edges (l2 ++ l1)).
Proof.
  destruct l1 as [|x l1]; [now rewrite app_nil_r|].
  destruct l2 as [|y l2]; [now rewrite app_nil_r|].
  rewrite !edges_app by discriminate. apply Permutation_app_comm.
Qed.
Lemma edges_rot_in l1 l2 e : In e (poly_edges (l1 ++ l2)) <-> In e (poly_edges (l2 ++ l1)).
Proof.
  split; apply Permutation_in; [|symmetry]; apply edges_rot.
Qed.

Lemma convex_ccw_rot l1 l2 : convex_ccw (l1 ++ l2) -> convex_ccw (l2 ++ l1).
Proof.
  intros (A & B & C). split; [rewrite app_length in *; lia|]. split.
  - eapply Permutation_NoDup; [apply Permutation_app_comm|exact B].
  - intros u v w He Hw. apply C; [now apply edges_rot_in|]. apply in_app_iff. apply in_app_iff in Hw. tauto.
Qed.

Lemma sumR_perm l l' : Permutation l l' -> sumR l = sumR l'.
Proof. induction 1; cbn; lra. Qed.

Lemma shoelace_rot l1 l2 : shoelace (l1 ++ l2) = shoelace (l2 ++ l1).
Proof. unfold shoelace. f_equal. apply sumR_perm, Permutation_map, edges_rot. Qed.

Lemma hull_rot_sub l1 l2 p : hull (l1 ++ l2) p -> hull (l2 ++ l1) p.
Proof.
  intros (ws & El & Hp & Hs & ->).
  rewrite app_length in El.
  set (w1 := firstn (length l1) ws). set (w2 := skipn (length l1) ws).
  assert (Ew : ws = w1 ++ w2) by (symmetry; apply firstn_skipn).
  assert (L1 : length w1 = length l1) by (unfold w1; rewrite firstn_length; lia).
  assert (L2 : length w2 = length l2) by (unfold w2; rewrite skipn_length; lia).
  exists (w2 ++ w1). rewrite Ew in Hp, Hs. apply Forall_app in Hp as (P1 & P2). rewrite sumR_app in Hs.
  split; [rewrite !app_length; lia|]. split; [now apply Forall_app|]. split; [rewrite sumR_app; lra|].
  rewrite Ew. apply pt_eq.
  - rewrite !comb_px, !wsum_app by auto. lra.
  - rewrite !comb_py, !wsum_app by auto. lra.
Qed.
Lemma hull_rot l1 l2 p : hull (l1 ++ l2) p <-> hull (l2 ++ l1) p.
Proof. split; apply hull_rot_sub. Qed.

(** ** The shoelace sum as a fan from any point *)
Definition cr (e : pt * pt) : R := px (fst e) * py (snd e) - px (snd e) * py (fst e).
Definition fan_sum (a : pt) (E : list (pt * pt)) : R := sumR (map (fun e => orient a (fst e) (snd e)) E).

Lemma fan_chain a : forall l v0, fan_sum a (chain v0 l) = sumR (map cr (chain v0 l)) + cr (a, v0) - cr (a, last l v0).
Proof.
  induction l as [|x l IH]; intros v0; [cbn; unfold fan_sum; cbn; lra|].
  cbn [chain]. unfold fan_sum in *. cbn [map sumR]. rewrite IH, last_cons. unfold cr, orient. cbn [fst snd]. ring.
Qed.
Lemma shoelace_fan a poly : shoelace poly = / 2 * fan_sum a (poly_edges poly).
Proof.
  unfold shoelace. f_equal. change (sumR (map cr (poly_edges poly)) = fan_sum a (poly_edges poly)).
  unfold poly_edges. destruct poly as [|x l]; [reflexivity|]. set (v0 := last (x :: l) (Pt 0 0)).
  rewrite fan_chain. replace (last (x :: l) v0) with v0; [lra|].
  unfold v0. rewrite !last_cons. reflexivity.
Qed.

(** the sides of the reversed polygon, each turned around *)
Lemma edges_rev_perm poly :
  Permutation (map (fun e => (snd e, fst e)) (poly_edges poly)) (poly_edges (rev poly)).
Proof.
  assert (C : forall l v0, map (fun e => (snd e, fst e)) (chain v0 l) = rev (chain (last l v0) (tl (rev (v0 :: l))))).
  { induction l as [|x l IH] using rev_ind; intros v0; [reflexivity|].
    rewrite chain_app, map_app. cbn [chain map]. rewrite last_last. cbn [fst snd].
    replace (rev (v0 :: l ++ [x])) with (x :: rev (v0 :: l)) by (cbn; rewrite rev_app_distr; reflexivity).
    cbn [tl]. rewrite IH.
    assert (R : rev (v0 :: l) = last l v0 :: tl (rev (v0 :: l))).
    { destruct l as [|y l'] using rev_ind; [reflexivity|]. rewrite last_last. cbn. rewrite rev_app_distr. reflexivity. }
    set (m := tl (rev (v0 :: l))) in *. clearbody m. rewrite R. reflexivity. }
  destruct poly as [|x l]; [constructor|]. unfold poly_edges. cbn [rev].
  rewrite last_last. rewrite last_cons.
  cbn [chain map fst snd]. rewrite C. 
  destruct l as [|y l'] using rev_ind; [reflexivity|]. clear IHl'.
  rewrite last_last. replace (rev (x :: l' ++ [y])) with (y :: rev (x :: l')) by (cbn; rewrite rev_app_distr; reflexivity).
  cbn [tl]. rewrite rev_app_distr. cbn [rev app chain].
  apply perm_skip. symmetry. apply Permutation_rev.
Qed.

Lemma shoelace_rev poly : shoelace (rev poly) = - shoelace poly.
Proof.
  unfold shoelace.
  assert (Hsum : forall E, sumR (map cr (map (fun e => (snd e, fst e)) E)) = - sumR (map cr E)).
  { induction E as [|(u, v) E IH]; cbn; [lra|]. rewrite IH. unfold cr. cbn. lra. }
  change (/ 2 * sumR (map cr (poly_edges (rev poly))) = - (/ 2 * sumR (map cr (poly_edges poly)))).
  replace (sumR (map cr (poly_edges (rev poly)))) with (- sumR (map cr (poly_edges poly))); [lra|].
  rewrite <- Hsum. apply sumR_perm. apply Permutation_map. apply edges_rev_perm.
Qed.

(** ** polygon_area *)
Lemma polygon_area_loop_eq a : forall l u U area,
  (U = to_vector a u \/ U = to_vector u a) ->
  polygon_area_loop a U l area = area + sumR (map (fun e => Rabs (orient a (fst e) (snd e))) (chain u l)).
Proof.
  induction l as [|c l IH]; intros u U area HU; cbn [polygon_area_loop chain map sumR]; [lra|].
  rewrite (IH c) by (now right). rsimp. cbn [fst snd].
  assert (E : Rabs (cross_product U (to_vector c a)) = Rabs (orient a u c)).
  { destruct HU as [-> | ->].
    - rewrite <- (Rabs_Ropp (orient a u c)). f_equal. unfold cross_product, to_vector, orient. rsimp. ring.
    - f_equal. unfold cross_product, to_vector, orient. rsimp. ring. }
  rewrite E. lra.
Qed.

Lemma polygon_area_eq poly : (2 <= length poly)%nat ->
  exists a, In a poly /\ polygon_area poly = Ok (/ 2 * sumR (map (fun e => Rabs (orient a (fst e) (snd e))) (poly_edges poly))).
Proof.
  intros H. destruct poly as [|a [|b l]]; try (cbn in H; lia). exists a. split; [now left|].
  unfold polygon_area. rsimp. do 2 f_equal. rewrite (polygon_area_loop_eq a l b) by (now left).
  rewrite edges_cons. cbn [chain map sumR fst snd]. 
  rewrite orient_12. replace (orient a (last (b :: l) a) a) with 0 by (unfold orient; ring).
  rewrite orient_11. rewrite Rabs_R0. lra.
Qed.

Lemma sum_abs_pos (F : pt * pt -> R) E : (forall e, In e E -> 0 <= F e) ->
  sumR (map (fun e => Rabs (F e)) E) = sumR (map F E).
Proof.
  induction E as [|e E IH]; intros H; [reflexivity|]. cbn. rewrite IH by (intros; apply H; now right).
  rewrite Rabs_pos_eq; [reflexivity|]. apply H. now left.
Qed.

(** the area loop is exact if no turn is to the right *)
Lemma polygon_area_exact poly : (2 <= length poly)%nat ->
  (forall u v w, In (u, v) (poly_edges poly) -> In w poly -> 0 <= orient u v w) ->
  polygon_area poly = Ok (shoelace poly).
Proof.
  intros Hl H. destruct (polygon_area_eq poly Hl) as (a & Ha & ->). f_equal.
  rewrite (shoelace_fan a). unfold fan_sum. f_equal.
  apply (sum_abs_pos (fun e => orient a (fst e) (snd e))). intros (u, v) He. cbn. rewrite orient_rot. now apply H.
Qed.

Lemma convex_area_ccw poly : convex_ccw poly -> polygon_area poly = Ok (shoelace poly).
Proof.
  intros HC. apply polygon_area_exact; [destruct HC; lia|]. intros u v w He Hw. now apply (orient_vertex poly).
Qed.

Lemma shoelace_pos poly : convex_ccw poly -> 0 < shoelace poly.
Proof.
  intros HC. pose proof HC as (Hl & Hn & Hs). destruct poly as [|a [|b [|c l]]]; try (cbn in Hl; lia).
  rewrite (shoelace_fan a).
  assert (Hp : forall E, (forall e, In e E -> 0 <= orient a (fst e) (snd e)) ->
     (exists e, In e E /\ 0 < orient a (fst e) (snd e)) -> 0 < fan_sum a E).
  { induction E as [|e E IH]; intros H (e0 & He0 & L); [destruct He0|]. unfold fan_sum in *. cbn [map sumR].
    pose proof (H e (or_introl eq_refl)).
    assert (0 <= sumR (map (fun e => orient a (fst e) (snd e)) E)).
    { clear - H. induction E as [|x E IH]; cbn; [lra|]. pose proof (H x (or_intror (or_introl eq_refl))).
      assert (0 <= sumR (map (fun e => orient a (fst e) (snd e)) E)); [|lra].
      apply IH. intros y [Hy|Hy]; apply H; [left; auto|right; now right]. }
    destruct He0 as [->|He0]; [lra|]. assert (0 < sumR (map (fun e => orient a (fst e) (snd e)) E)); [|lra].
    apply IH; [intros; apply H; now right|eauto]. }
  assert (0 < fan_sum a (poly_edges (a :: b :: c :: l))); [|lra]. apply Hp.
  - intros (u, v) He. cbn [fst snd]. rewrite orient_rot. apply (orient_vertex _ u v a HC He). now left.
  - exists (b, c). split; [rewrite edges_cons; right; right; now left|]. cbn [fst snd]. rewrite orient_rot.
    apply (Hs b c a); [rewrite edges_cons; right; right; now left|now left| |];
      intros ->; inversion Hn as [|? ? N1 _]; apply N1; [now left|right; now left].
Qed.

(** ** Strictly convex polygons with the same points have the same sides *)
Section Unique.
  Variables P Q : list pt.
  Hypothesis HP : convex_ccw P.
  Hypothesis HQ : convex_ccw Q.
  Hypothesis Hull : forall p, hull P p -> hull Q p.
  Hypothesis Hull' : forall p, hull Q p -> hull P p.

  Lemma vertex_extreme w : In w P -> In w Q.
  Proof.
    intros Hw. destruct (edges_end P w Hw) as (u & Hu). destruct (edges_start P w Hw) as (v & Hv).
    assert (Hq : forall q, In q Q -> 0 <= orient u w q /\ 0 <= orient w v q).
    { intros q Hin. assert (Hi : in_poly P q) by (apply in_poly_hull; auto; apply Hull', hull_vertex; auto).
      split; apply Hi; auto. }
    destruct (Hull w (hull_vertex P w Hw)) as (ws & El & Hpos & Hsum & Ew).
    pose proof (comb_orient u w ws Q El Hsum) as E1. rewrite <- Ew, orient_22 in E1.
    pose proof (comb_orient w v ws Q El Hsum) as E2. rewrite <- Ew, orient_12 in E2.
    assert (Huv : 0 < orient u w v).
    { destruct HP as (Hl & Hn & Hs). apply Hs; auto; [apply (edges_in P w v Hv)| |].
      - intros ->. (* u -> w -> u: only two vertices *)
        destruct (third_vertex P u w HP) as (z & Hz & N1 & N2).
        pose proof (Hs u w z Hu Hz N1 N2). pose proof (Hs w u z Hv Hz N2 N1). rewrite orient_swap in H0. lra.
      - intros ->. apply (edges_neq P w w Hn) in Hv; [congruence|lia]. }
    assert (G : forall ws' Q', length ws' = length Q' -> Forall (fun x => 0 <= x) ws' ->
              (forall q, In q Q' -> 0 <= orient u w q /\ 0 <= orient w v q) ->
              wsum (orient u w) ws' Q' = 0 -> wsum (orient w v) ws' Q' = 0 -> 0 < sumR ws' -> In w Q').
    { clear - Huv. induction ws' as [|x ws' IH]; intros [|q Q'] L HF H S1 S2 Hs; try discriminate; [cbn in Hs; lra|].
      inversion HF as [|? ? Hx HF']; subst. rewrite wsum_cons in S1, S2. cbn in Hs.
      assert (Hq : 0 <= orient u w q /\ 0 <= orient w v q) by (apply H; now left).
      assert (A1 : 0 <= wsum (orient u w) ws' Q') by (apply wsum_nonneg; auto; intros r Hr; apply H; now right).
      assert (A2 : 0 <= wsum (orient w v) ws' Q') by (apply wsum_nonneg; auto; intros r Hr; apply H; now right).
      assert (B1 : 0 <= x * orient u w q) by (apply Rmult_le_pos; tauto).
      assert (B2 : 0 <= x * orient w v q) by (apply Rmult_le_pos; tauto).
      destruct (Req_dec x 0) as [->|Hx0].
      - right. apply IH; auto; try lra. intros r Hr. apply H. now right.
      - left. assert (C1 : x * orient u w q = 0) by lra. assert (C2 : x * orient w v q = 0) by lra.
        apply Rmult_integral in C1 as [C1|C1]; [lra|]. apply Rmult_integral in C2 as [C2|C2]; [lra|].
        (* the two lines meet only in w *)
        assert (X : orient u w v * (px q - px w) = (px v - px w) * orient u w q - (px w - px u) * orient w v q)
          by (unfold orient; ring).
        assert (Y : orient u w v * (py q - py w) = (py v - py w) * orient u w q - (py w - py u) * orient w v q)
          by (unfold orient; ring).
        rewrite C1, C2 in X, Y.
        assert (X' : orient u w v * (px q - px w) = 0) by lra. assert (Y' : orient u w v * (py q - py w) = 0) by lra.
        apply Rmult_integral in X' as [X'|X']; [lra|]. apply Rmult_integral in Y' as [Y'|Y']; [lra|].
        apply pt_eq; lra. }
    apply (G ws Q); auto; lra.
  Qed.
End Unique.

Lemma same_edges P Q : convex_ccw P -> convex_ccw Q -> (forall p, hull P p <-> hull Q p) ->
  forall u v, In (u, v) (poly_edges P) -> In (u, v) (poly_edges Q).
Proof.
  intros HP HQ H u v He.
  assert (HPQ : forall w, In w P -> In w Q) by (apply vertex_extreme; auto; intros; now apply H).
  assert (HQP : forall w, In w Q -> In w P) by (apply vertex_extreme; auto; intros; now apply H).
  destruct (edges_in P u v He) as (Hu & Hv).
  destruct (edges_start Q u (HPQ u Hu)) as (s & Hs). destruct (edges_in Q u s Hs) as (_ & Hs').
  pose proof (orient_vertex P u v s HP He (HQP s Hs')) as O1.
  destruct (pt_dec s v) as [->|Hn]; auto. exfalso.
  destruct HQ as (Hl & Hnd & Hst). assert (u <> v).
  { destruct HP as (L & N & _). apply (edges_neq P u v N); [lia|exact He]. }
  pose proof (Hst u s v Hs (HPQ v Hv) ltac:(congruence) ltac:(congruence)).
  assert (orient u v s = - orient u s v) by (unfold orient; ring). lra.
Qed.

(** hence the same area *)
Theorem area_unique P Q : convex_ccw P -> convex_ccw Q -> (forall p, hull P p <-> hull Q p) ->
  shoelace P = shoelace Q.
Proof.
  intros HP HQ H. unfold shoelace. f_equal. apply sumR_perm, Permutation_map, NoDup_Permutation.
  - apply edges_nodup, HP.
  - apply edges_nodup, HQ.
  - intros (u, v). split; apply same_edges; auto. intros p. symmetry. apply H.
Qed.
