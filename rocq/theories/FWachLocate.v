(** Wachspress weights in binary64: the points that locate_points puts in a face. *)
From Coq Require Import Reals Lra Psatz.
From Flocq Require Import IEEE754.BinarySingleNaN Core.
From Verif Require Import RBase NumB64 NumRoom FBase FBuild MUtils MGeometry MAlgorithms FPoint FCut FLocate FMesh FWeights
  SpecTree SpecPoly SpecGeom SpecMesh PApi PPartition GTriangle GConvex GHull GRay GFaces GWach GWachSpec PropWach SpecWach FWach FWachSide FWachLoop FWachPoly.
Open Scope R_scope.

(** ** Points near a polygon *)
Lemma hull_coordinate (f : pt -> R) a b c (Hf : forall q, f q = a * px q + b * py q + c) m M poly z :
  hull poly z -> (forall v, In v poly -> m <= f v <= M) -> m <= f z <= M.
Proof.
  intros (ws & Hl & Hw & Hs & ->) Hb.
  assert (E : f (comb ws poly) = sumR (map (fun wv => fst wv * f (snd wv)) (combine ws poly)) + (1 - sumR ws) * c).
  { rewrite Hf. unfold comb. cbn [px py]. clear Hs Hw Hb. revert poly Hl. induction ws as [|w ws IH]; intros [|v poly] Hl; try discriminate; cbn.
    - ring.
    - specialize (IH poly ltac:(cbn in Hl; lia)). cbn in IH. rewrite (Hf v). lra. }
  rewrite E, Hs, Rminus_eq_0, Rmult_0_l, Rplus_0_r.
  assert (G : m * sumR ws <= sumR (map (fun wv => fst wv * f (snd wv)) (combine ws poly)) <= M * sumR ws); [|rewrite Hs in G; lra].
  clear Hs E. revert poly Hl Hb. induction Hw as [|w ws H0 Hw IH]; intros [|v poly] Hl Hb; try discriminate; cbn; [lra|].
  specialize (IH poly ltac:(cbn in Hl; lia) ltac:(intros; apply Hb; now right)). specialize (Hb v ltac:(now left)). nra.
Qed.

Lemma clear_located W D t r poly p : 0 <= r -> clear_polygon W D t r poly -> hull poly p \/ near_boundary r poly p -> clear_weights W D t poly p.
Proof.
  intros Hr (HW & HD & HS & HT & HE) Hp. split; auto. split; auto. split; [|auto].
  assert (HZ : exists z, hull poly z /\ dist2 p z <= r * r).
  { destruct Hp as [Hp|(u & v & He & z & (s & Hs & ->) & Hd)].
    - exists p. split; auto. unfold dist2. rewrite !Rminus_eq_0. pose proof (Rle_0_sqr r) as Q. unfold Rsqr in Q. lra.
    - exists (at_ u v s). split; auto. apply edges_in in He. apply hull_at; auto; apply hull_vertex; tauto. }
  destruct HZ as (z & Hz & Hd).
  assert (Hdx : Rabs (px p - px z) <= r /\ Rabs (py p - py z) <= r).
  { assert (A : forall x y, x * x + y * y <= r * r -> Rabs x <= r).
    { intros x y H. apply Rsqr_incr_0_var; auto. rewrite <- Rsqr_abs. pose proof (Rle_0_sqr y). unfold Rsqr in *. lra. }
    unfold dist2 in Hd. split; [apply (A _ (py p - py z))|apply (A _ (px p - px z))]; lra. }
  destruct Hdx as (DX & DY). apply Rabs_le_iff in DX, DY.
  assert (G : forall u, In u poly -> Rabs (px p - px u) <= W /\ Rabs (py p - py u) <= W).
  { intros u Hu. split; apply Rabs_le_iff.
    - destruct (hull_coordinate px 1 0 0 ltac:(intros; ring) (px u - (W - r)) (px u + (W - r)) poly z Hz) as (A & B); [|lra].
      intros v Hv. destruct (HS u v Hu Hv) as (X & _). assert (X' : Rabs (px v - px u) <= W - r) by lra. apply Rabs_le_iff in X'. lra.
    - destruct (hull_coordinate py 0 1 0 ltac:(intros; ring) (py u - (W - r)) (py u + (W - r)) poly z Hz) as (A & B); [|lra].
      intros v Hv. destruct (HS u v Hu Hv) as (_ & X). assert (X' : Rabs (py v - py u) <= W - r) by lra. apply Rabs_le_iff in X'. lra. }
  assert (PW : 0 < W) by (pose proof (bpow_gt_0 radix2 (-200)); lra).
  intros u v [<-|Hu] [<-|Hv].
  - rewrite !Rminus_eq_0, Rabs_R0. lra.
  - rewrite (Rabs_minus_sym (px v)), (Rabs_minus_sym (py v)). now apply G.
  - now apply G.
  - destruct (HS u v Hu Hv). lra.
Qed.

Lemma clear_polygon_either W D t r poly poly' : poly' = poly \/ poly' = rev poly -> clear_polygon W D t r poly -> clear_polygon W D t r poly'.
Proof.
  intros [->| ->] (HW & HD & HS & HT & HE); [exact (conj HW (conj HD (conj HS (conj HT HE))))|]. split; auto. split; auto. split; [|split].
  - intros u v Hu Hv. apply in_rev in Hu, Hv. now apply HS.
  - intros a b c H1 H2. apply edges_rev_in in H1, H2. replace (orient a b c) with (- orient c b a) by (unfold orient; ring). rewrite Rabs_Ropp. now apply HT.
  - intros u v H. apply edges_rev_in in H. replace (dist2 v u) with (dist2 u v) by (unfold dist2; ring). now apply HE.
Qed.

(** the distance to a side bounds the distance to its line *)
Lemma segment_line r u v p : near_segment r u v p -> orient u v p * orient u v p <= r * r * dist2 v u.
Proof.
  intros (z & (s & Hs & ->) & Hd).
  replace (orient u v p) with ((px v - px u) * (py p - py (at_ u v s)) - (py v - py u) * (px p - px (at_ u v s))) by (unfold orient, at_; cbn [px py]; ring).
  unfold dist2 in *. set (x := px p - px (at_ u v s)) in *. set (y := py p - py (at_ u v s)) in *. set (a := px v - px u). set (b := py v - py u).
  apply Rle_trans with ((x * x + y * y) * (a * a + b * b)).
  - pose proof (Rle_0_sqr (a * x + b * y)) as Q. unfold Rsqr in Q. nra.
  - apply Rmult_le_compat_r; auto. pose proof (Rle_0_sqr a). pose proof (Rle_0_sqr b). unfold Rsqr in *. lra.
Qed.

(** ** Computed and exact weights *)
Lemma rel_sum (e : R) : forall (ws : list b64) ws0, Forall2 (fun w w0 => is_finite w = true /\ 0 < w0 /\ rel e (B2R w) w0) ws ws0 ->
  Rabs (sumR (map B2R ws) - sumR ws0) <= e * sumR ws0.
Proof.
  induction 1 as [|w w0 ws ws0 (_ & H0 & H) _ IH]; cbn [map sumR]; [rewrite Rminus_eq_0, Rabs_R0; lra|].
  unfold rel in H. apply Rabs_le_iff in H, IH. apply Rabs_le_iff. lra.
Qed.
Lemma rel_comb (e M : R) (f : pt -> R) q : 0 <= e -> forall (ws : list b64) ws0, Forall2 (fun w w0 => is_finite w = true /\ 0 < w0 /\ rel e (B2R w) w0) ws ws0 ->
  forall vs, length vs = length ws -> (forall v, In v vs -> Rabs (f v - q) <= M) ->
  Rabs (sumR (map (fun wv => fst wv * f (snd wv)) (combine (map B2R ws) vs)) - sumR (map (fun wv => fst wv * f (snd wv)) (combine ws0 vs))
        - q * (sumR (map B2R ws) - sumR ws0)) <= e * M * sumR ws0.
Proof.
  intros He. induction 1 as [|w w0 ws ws0 (_ & H0 & H) _ IH]; intros [|v vs] L HB; try discriminate; cbn [map sumR combine fst snd].
  - rewrite !Rminus_eq_0, Rmult_0_r, Rminus_eq_0, Rabs_R0. lra.
  - specialize (IH vs ltac:(cbn in L; lia) ltac:(intros; apply HB; now right)). specialize (HB v ltac:(now left)).
    assert (G : Rabs ((B2R w - w0) * (f v - q)) <= e * w0 * M) by now apply mul_abs.
    apply Rabs_le_iff in G, IH. apply Rabs_le_iff. lra.
Qed.

Section Pip.
  Context (k : Z) (Hk : (-150 <= k <= 250)%Z).
  Variable p : point b64.
  Variable tol : b64.
  Hypothesis Bp : bpt k p.
  Hypothesis Bt : bounded k tol.
  Hypothesis Pt0 : 0 <= B2R tol.

  (** the test of the ray casting loop on a side *)
  Definition nearB (u v : point b64) : bool :=
    within_perpendicular_distance (cross_product (to_vector p u) (to_vector p v)) (to_vector u v) tol.

  Lemma loop_sides : forall l v0 c b, bpt k v0 -> Forall (bpt k) l ->
    (forall u v, In (u, v) (chain (rp v0) (map rp l)) -> side_ok u v) ->
    pip_or_edge_loop p tol v0 (to_vector p v0) l c = Ok b ->
    near_chain (bpow radix2 (k - 49)) (chain (rp v0) (map rp l)) (rp p)
    \/ b = xorb c (inside (rp p) (chain (rp v0) (map rp l)))
    \/ exists u v, In (u, v) (bchain v0 l) /\ nearB u v = true.
  Proof.
    induction l as [|v1 l IH]; intros v0 c b H0 Hl Hs E.
    - right. left. cbn in E. apply Ok_inj in E. cbn. now rewrite xorb_false_r.
    - cbn [pip_or_edge_loop] in E. cbv zeta in E. inversion Hl as [|? ? H1 Hl']; subst.
      cbn [map chain] in *. assert (Hs1 : side_ok (rp v0) (rp v1)) by (apply Hs; now left).
      assert (En : point_eqb v1 v0 = false).
      { destruct (point_eqb v1 v0) eqn:En; auto. unfold point_eqb in En. destruct H0 as (A0 & B0), H1 as (A1 & B1).
        rewrite !neqb_B in En by (apply A0 || apply B0 || apply A1 || apply B1). rb.
        destruct (side_ok_neq _ _ Hs1). unfold rp. f_equal; congruence. }
      rewrite En in E. fold (nearB v0 v1) in E.
      destruct (nearB v0 v1 && in_bounds p v0 v1) eqn:Ew.
      + apply andb_prop in Ew as (E1 & E2). right. right. exists v0, v1. split; [now left|auto].
      + destruct (crosses_agree k Hk p v0 v1 Bp H0 H1 Hs1) as [Hc|Hc].
        * rewrite Hc, crosses_eq in E. cbn [bind] in E.
          destruct (IH v1 _ b H1 Hl' (fun u v H => Hs u v (or_intror H)) E) as [H|[H|(u & v & Hb & H)]].
          -- left. now apply near_chain_cons.
          -- right. left. rewrite inside_cons, H.
             destruct (xorb (upx (rp p) (rp v0, rp v1)) (downx (rp p) (rp v0, rp v1))), c, (inside (rp p) (chain (rp v1) (map rp l))); reflexivity.
          -- right. right. exists u, v. split; auto. now right.
        * left. exists (rp v0), (rp v1). split; [now left|auto].
  Qed.

  Lemma pip_side_or_hull W D v0 l (poly := v0 :: l) : convex (map rp poly) -> Forall (bpt k) poly ->
    (forall u v, In (u, v) (poly_edges (map rp poly)) -> side_ok u v) ->
    clear_weights W D (B2R tol) (map rp poly) (rp p) -> bpow radix2 (k - 47) <= B2R tol ->
    point_in_polygon_or_on_edge p poly tol = Ok true ->
    hull (map rp poly) (rp p) \/ exists u v, In (u, v) (poly_edges (map rp poly)) /\ line_near (1.01 * B2R tol) u v (rp p).
  Proof.
    intros Hc Hb Hs HCW Ht E. set (t := B2R tol) in *.
    unfold point_in_polygon_or_on_edge in E. replace (aget poly (-1)%Z) with (Ok (A:=point b64) (last l v0)) in E by (symmetry; apply last_vertexB).
    cbn [bind] in E.
    assert (El : forall r (x : point b64), last (map rp (x :: r)) (Pt 0 0) = rp (last r x)).
    { clear. induction r as [|y r IH]; intros x; auto. rewrite (last_cons r y x). cbn [map] in *. apply IH. }
    assert (EL : poly_edges (map rp poly) = chain (rp (last l v0)) (map rp poly)) by (unfold poly_edges, poly; rewrite El; reflexivity).
    assert (Ia : In (last l v0) poly).
    { unfold poly. clear. revert v0. induction l as [|x r IH]; intros y; [now left|]. right. rewrite (last_cons r x y). apply IH. }
    pose proof Hb as Hb'. rewrite Forall_forall in Hb'.
    assert (Q : forall u v, In u poly -> In v poly -> In (rp u, rp v) (poly_edges (map rp poly)) -> bpow radix2 (-490) <= dist2 (rp v) (rp u)).
    { intros u v Iu Iv He. exact (proj1 (side_facts k Hk p tol Bp Bt Pt0 W D v0 l Hb HCW u v Iu Iv He)). }
    destruct (loop_sides poly (last l v0) false true (Hb' _ Ia) Hb) as [(u & v & He & Hn)|[H|(u & v & He & Hn)]]; auto.
    { rewrite <- EL. exact Hs. }
    - right. exists u, v. rewrite <- EL in He. split; auto. apply segment_line in Hn.
      pose proof (edges_in _ _ _ He) as (Iu & Iv). apply in_map_iff in Iu as (u' & <- & Iu). apply in_map_iff in Iv as (v' & <- & Iv).
      pose proof (Q u' v' Iu Iv He) as Hq. pose proof (bpow_gt_0 radix2 (-490)) as P490. pose proof (bpow_gt_0 radix2 (k - 49)) as P49.
      assert (H4 : bpow radix2 (k - 49) <= t) by (eapply Rle_trans; [|exact Ht]; apply bpow_le; lia).
      unfold line_near. eapply Rle_lt_trans; [exact Hn|]. apply Rmult_lt_compat_r; [lra|]. nra.
    - left. apply inside_hull; auto. rewrite EL. now rewrite xorb_false_l in H.
    - right. exists (rp u), (rp v).
      assert (Hin : In u poly /\ In v poly /\ In (rp u, rp v) (poly_edges (map rp poly))).
      { rewrite EL. split; [|split].
        - assert (G : forall (r : list (point b64)) x, In (u, v) (bchain x r) -> In u (x :: r)).
          { clear. induction r as [|y r IH]; intros x H; [destruct H|]. destruct H as [H|H]; [inversion H; subst; now left|]. right. now apply IH. }
          apply G in He. destruct He as [<-|He]; auto.
        - clear - He. revert He. generalize (last l v0). generalize poly. induction poly0 as [|y r IH]; intros x H; [destruct H|].
          destruct H as [H|H]; [inversion H; subst; now left|]. right. eapply IH; eauto.
        - now apply bchain_in in He. }
      destruct Hin as (Iu & Iv & He'). split; auto. pose proof (Q u v Iu Iv He') as Hq. clear Q.
      pose proof (Hb' _ Iu) as Bu. pose proof (Hb' _ Iv) as Bv. set (q := dist2 (rp v) (rp u)) in *.
      pose proof HCW as (HW & HD & HS & HT & HE).
      assert (SP : forall x, In x poly -> Rabs (px (rp x) - px (rp p)) <= W /\ Rabs (py (rp x) - py (rp p)) <= W).
      { intros x Hx. apply HS; [now left|]. right. now apply in_map. }
      destruct (SP u Iu) as (X1 & Y1). destruct (SP v Iv) as (X2 & Y2). clear SP.
      destruct (cross_W k Hk p u v W 1 Bp Bu Bv ltac:(eapply Rle_trans; [|apply HW]; apply bpow_le; lia) ltac:(lra) X1 Y1 ltac:(rewrite Rmult_1_l; exact X2) ltac:(rewrite Rmult_1_l; exact Y2)) as (BA & EA).
      replace (orient (rp p) (rp u) (rp v)) with (orient (rp u) (rp v) (rp p)) in EA by (unfold orient; ring).
      set (o := orient (rp u) (rp v) (rp p)) in *.
      unfold nearB in Hn. set (A := cross_product (to_vector p u) (to_vector p v)) in *.
      destruct (nabs_B A) as (ENA & FNA).
      assert (BA' : bounded (2 * k + 3) A).
      { destruct BA as (F & B). split; [now rewrite <- FNA|]. rewrite ENA, Rabs_Rabsolu in B. exact B. }
      pose proof (HE _ _ He') as Hq2. fold t q in Hq2.
      pose proof (D_pos W D HW HD) as PD. assert (PDD : 0 < D * D) by now apply Rmult_lt_0_compat.
      assert (Htq : bpow radix2 (-900) <= t * t * q).
      { pose proof (D_abs W D HW HD) as LA. pose proof (bpow_gt_0 radix2 (-444)).
        assert (H8 : bpow radix2 (-444) * bpow radix2 (-444) <= D * D) by (apply Rmult_le_compat; lra).
        rewrite <- bpow_plus in H8. apply Rle_trans with (bpow radix2 (-444 + -444)); [apply bpow_le; lia|]. pose proof (bpow_gt_0 radix2 (-444 + -444)). lra. }
      pose proof (wpd_high k Hk A tol u v Bu Bv BA' Bt Pt0 Hq Htq Hn) as Hl. cbv zeta in Hl. fold q t in Hl.
      replace (B2R A * B2R A) with (Rabs (B2R A) * Rabs (B2R A)) in Hl by (unfold Rabs; destruct (Rcase_abs (B2R A)); ring).
      rewrite ENA in EA. apply Rabs_le_iff in EA.
      set (h := t * sqrt q).
      assert (Pq : 0 < q) by (pose proof (bpow_gt_0 radix2 (-490)); lra).
      assert (Ph : 0 <= h) by (unfold h; apply Rmult_le_pos; [auto|apply sqrt_pos]).
      assert (Eh : h * h = t * t * q) by (unfold h; rewrite <- (sqrt_def q) at 3 by lra; ring).
      assert (HS' : 1118 * (uro * (W * W)) <= h).
      { assert (1.118 * D <= h); [|lra]. apply Rsqr_incr_0_var; auto. unfold Rsqr. rewrite Eh. lra. }
      assert (Ph' : 0 < h) by (assert (0 < uro * (W * W)) by exact (S_pos W HW); lra).
      rewrite <- Eh in Hl. pose proof (Rabs_pos (B2R A)) as PA.
      assert (H1 : Rabs (B2R A) <= 1.002 * h) by (apply Rsqr_incr_0_var; [unfold Rsqr; nra|lra]).
      assert (H2 : Rabs o <= 1.0095 * h) by lra.
      unfold line_near. fold o. replace (o * o) with (Rabs o * Rabs o) by (unfold Rabs; destruct (Rcase_abs o); ring). fold q.
      replace (1.01 * t * (1.01 * t) * q) with (1.01 * 1.01 * (h * h)) by (rewrite Eh; ring).
      pose proof (Rabs_pos o). assert (Rabs o * Rabs o <= 1.0095 * h * (1.0095 * h)) by (apply Rmult_le_compat; lra).
      assert (0 < h * h) by now apply Rmult_lt_0_compat. lra.
  Qed.
End Pip.
