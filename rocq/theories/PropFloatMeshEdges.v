(** C57: Cyrus-Beck and CellTree2d.intersect_edges in binary64. *)
From Coq Require Import Reals Lra Psatz Sorted.
From Flocq Require Import IEEE754.BinarySingleNaN Core.
From Verif Require Import RBase NumB64 NumRoom FBase FBuild GLines MGeometry MCreation MAlgorithms MQuery MCelltree
  SpecTree SpecQuery SpecApi PQuery PMesh PInit NumSub PApi PTreeBox SpecMesh FPoint FLocate FCut FMesh FBoxClip FLines FEdgeTree FNetEdges
  FCyrus FMeshEdges SpecGeom SpecPoly GTriangle GConvex GHull GFaces GTreeEdges PropClipLine Examples PropPoints PropEdges PropFaces PropFloat PropFloatPoints
  PropFloatEdges.
Open Scope R_scope.
Local Notation bounded := NumRoom.bounded.

(** ** C57: cyrus_beck_line_polygon_clip *)
Theorem C57_float_cyrus_beck k W dl (a b : point b64) poly tol : (-40 <= k <= 240)%Z ->
  bpow radix2 (-250) <= W <= bpow radix2 (k + 1) -> 0 < dl ->
  Forall (bpt k) (a :: b :: poly) -> all_near W (rp a :: rp b :: map rp poly) ->
  bounded k tol -> 0 <= B2R tol -> convex (map rp poly) -> (forall u v, In (u, v) (poly_edges (map rp poly)) -> side_ok u v) ->
  clear_line W (rp a) (rp b) (map rp poly) -> steep dl (rp a) (rp b) (map rp poly) ->
  placed k (B2R tol) (map rp poly) (rp a) -> placed k (B2R tol) (map rp poly) (rp b) ->
  exists r, cyrus_beck_line_polygon_clip a b poly tol = Ok r
    /\ clip_close (cyrus_err k W dl (rp a) (rp b)) (hull (map rp poly)) (rp a) (rp b) (rclip r).
Proof. intros Hk HW Hdl HB HS Bt Ht HC HO. exact (cyrus_64 k W dl Hk HW Hdl a b poly HB HS tol Bt Ht HC HO). Qed.

(** ** C57: CellTree2d.intersect_edges *)
Theorem C57_float_intersect_edges k g (vs : list (point b64)) faces fill nb cpl t :
  (-40 <= k <= 240)%Z -> mesh_ok vs faces fill -> bounded_vertices k vs ->
  convex_mesh (map rp vs) faces fill -> sides_ok (map rp vs) faces fill -> faces_plain (map rp vs) faces fill ->
  CellTree2d_init g vs faces fill nb cpl = Ok t ->
  forall queries, Forall (mesh_query k (celltree_data t) (map rp vs) faces fill) queries ->
  exists rows,
    (forall g' csfuel n_threads, (4 <= csfuel)%nat -> (1 <= n_threads)%nat ->
       CellTree2d_intersect_edges g' csfuel n_threads t queries = Ok rows)
    /\ NoDup (map fst rows) /\ StronglySorted Z.le (map (fun r => fst (fst r)) rows)
    (* edges and faces by number *)
    /\ (forall i j c, In ((i, j), c) rows -> (0 <= i < zlen queries)%Z /\ exists poly, face_poly (map rp vs) faces fill j poly)
    /\ (forall i j a b poly K, (0 <= i)%Z -> nth_error queries (Z.to_nat i) = Some (a, b) ->
          face_poly (map rp vs) faces fill j poly -> tight_box poly K ->
          (* no row for a face that is away from the edge *)
          (away (bpow radix2 (k - 45)) (rp a) (rp b) K -> forall c, ~ In ((i, j), c) rows)
          /\ forall W dl, bpow radix2 (-250) <= W <= bpow radix2 (k + 1) -> 0 < dl -> all_near W (rp a :: rp b :: poly) ->
               clear_line W (rp a) (rp b) poly -> steep dl (rp a) (rp b) poly ->
               let e := cyrus_err k W dl (rp a) (rp b) in
               (* a row is the common part of edge and face *)
               (forall c, In ((i, j), c) rows -> exists c1 c2, c = (Some c1, Some c2)
                    /\ clip_close e (hull poly) (rp a) (rp b) (Some (rp c1, rp c2)))
               (* a common part of some length has a row *)
               /\ (forall x y, on_segment (rp a) (rp b) x -> on_segment (rp a) (rp b) y -> hull poly x -> hull poly y ->
                    deep (bpow radix2 (k - 46)) K x -> ~ close (2 * e) x y -> exists c, In ((i, j), c) rows)).
Proof.
  intros Hk Hm Hbd Hc Hs Hp E queries HQ. pose proof (init_built _ _ _ _ _ _ _ Hm E) as Hb.
  pose proof (mesh_tight _ _ _ _ _ _ _ Hm E) as Htb.
  destruct (mesh_edges k Hk vs faces fill cpl t Hm Hb Hbd Hc Hs Hp Htb queries HQ) as (rows & H1 & H2 & H3 & H4 & H5).
  exists rows. split; [exact H1|]. split; auto. split; auto. split; auto.
  intros i j a b poly K Hi Ei HR HT. destruct (H5 i j a b poly K Hi Ei HR HT) as (r & (R1 & R2 & R3) & Hin & Hout). split.
  - intros HA c Hc'. apply Hin in Hc'. rewrite (R1 HA) in Hc'. discriminate.
  - intros W dl HW Hdl HS HC HSt e. specialize (R3 W dl HW Hdl HS HC HSt). split.
    + intros c Hc'. apply Hin in Hc'. destruct (R2 c Hc') as (c1 & c2 & ->). exists c1, c2. split; auto. rewrite Hc' in R3. exact R3.
    + intros x y Hx Hy Sx Sy Dx Hxy. destruct r as [c|].
      * exists c. apply (Hout x c eq_refl); auto.
        -- intros Eab. apply Hxy. destruct Hx as (s & _ & ->), Hy as (u & _ & ->). rewrite Eab.
           assert (0 <= e). 
           { unfold e, cyrus_err. pose proof (reach_pos (rp a) (rp b)). pose proof uro_pos. pose proof (bpow_gt_0 radix2 k).
             assert (0 <= W * W) by apply Rle_0_sqr.
             assert (0 <= uro * (W * W)) by (apply Rmult_le_pos; lra).
             assert (0 <= 22 * (uro * (W * W)) / dl * reach (rp a) (rp b)).
             { apply Rmult_le_pos; auto. unfold Rdiv. apply Rmult_le_pos; [lra|]. left. now apply Rinv_0_lt_compat. }
             assert (0 <= uro * bpow radix2 k) by (apply Rmult_le_pos; lra). lra. }
           unfold close, at_. cbn [px py].
           replace (px (rp b) + s * (px (rp b) - px (rp b)) - (px (rp b) + u * (px (rp b) - px (rp b)))) with 0 by ring.
           replace (py (rp b) + s * (py (rp b) - py (rp b)) - (py (rp b) + u * (py (rp b) - py (rp b)))) with 0 by ring.
           rewrite Rabs_R0. lra.
        -- eapply hull_in_box; eauto.
        -- eapply deep_face; eauto.
      * exfalso. apply Hxy. cbn [clip_close] in R3. apply R3; eauto.
Qed.

(** A query edge through the upper row of the grid of Examples, which crosses the
    diagonal of the last square: rows for two squares and both triangles, and the
    ends on the lower triangle. *)
Definition c57_queries : list (point b64 * point b64) := [(Pt (Zb (-3)) (Zb 1), Pt (Zb 6) (Zb 2))].

Lemma c57_box t : CellTree2d_init (T:=b64) g0 grid grid_faces (-1) 4 2 = Ok t ->
  let K := rbox (bbox (celltree_data t)) in xmin K = 0 /\ xmax K = 3 /\ ymin K = 0 /\ ymax K = 2.
Proof.
  intros E.
  assert (H : match CellTree2d_init (T:=b64) g0 grid grid_faces (-1) 4 2 with
     | Ok t => let K := bbox (celltree_data t) in
        is_finite (xmin K) && is_finite (xmax K) && is_finite (ymin K) && is_finite (ymax K)
        && nleb (Zb 0) (xmin K) && nleb (xmin K) (Zb 0) && nleb (Zb 3) (xmax K) && nleb (xmax K) (Zb 3)
        && nleb (Zb 0) (ymin K) && nleb (ymin K) (Zb 0) && nleb (Zb 2) (ymax K) && nleb (ymax K) (Zb 2)
     | Err _ => false end = true) by (vm_compute; reflexivity).
  rewrite E in H. cbv zeta in H. rewrite !andb_true_iff in H.
  destruct H as (((((((((((F1 & F2) & F3) & F4) & A1) & A2) & A3) & A4) & A5) & A6) & A7) & A8).
  assert (V : forall n, (Z.abs n <= 8)%Z -> is_finite (Zb n) = true /\ B2R (Zb n) = IZR n) by (intros n Hn; apply Zb_exact; lia).
  destruct (V 0%Z ltac:(lia)) as (G2 & V2), (V 2%Z ltac:(lia)) as (G3 & V3), (V 3%Z ltac:(lia)) as (G4 & V4).
  apply le_B in A1, A2, A3, A4, A5, A6, A7, A8; auto.
  rewrite V2 in A1, A2, A5, A6. rewrite V3 in A7, A8. rewrite V4 in A3, A4.
  intros K. unfold K, rbox. cbn [xmin xmax ymin ymax]. lra.
Qed.

Lemma c57_tight (poly : list pt) x0 x1 y0 y1 : (forall p, In p poly -> x0 <= px p <= x1 /\ y0 <= py p <= y1) ->
  (exists p, In p poly /\ px p = x0) -> (exists p, In p poly /\ px p = x1) ->
  (exists p, In p poly /\ py p = y0) -> (exists p, In p poly /\ py p = y1) -> tight_box poly (Box x0 x1 y0 y1).
Proof.
  intros H H1 H2 H3 H4. split; [|rewrite !Exists_exists; auto].
  apply Forall_forall. intros p Hp. destruct (H p Hp) as ((A & B) & C & D).
  split; [now apply Rle_bool_true|]. split; [now apply Rle_bool_true|]. split; now apply Rle_bool_true.
Qed.

(** the faces of the grid and their boxes *)
Lemma c57_faces j poly : face_poly (@grid R _) grid_faces (-1) j poly ->
  exists x y, (0 <= x <= 2)%Z /\ (0 <= y <= 1)%Z /\ tight_box poly (Box (IZR x) (IZR (x + 1)) (IZR y) (IZR (y + 1)))
    /\ (y = 1%Z -> 3 <= j <= 6)%Z
    /\ forall p, In p poly -> exists m n, p = Pt (IZR m) (IZR n) /\ (x <= m <= x + 1 /\ y <= n <= y + 1)%Z.
Proof.
  assert (G : forall (x y : Z) (l : list (Z * Z)), (0 <= x <= 2)%Z -> (0 <= y <= 1)%Z -> (y = 1%Z -> 3 <= j <= 6)%Z ->
    forallb (fun p => (x <=? fst p) && (fst p <=? x + 1) && (y <=? snd p) && (snd p <=? y + 1))%Z l = true ->
    existsb (fun p => fst p =? x)%Z l = true -> existsb (fun p => fst p =? x + 1)%Z l = true ->
    existsb (fun p => snd p =? y)%Z l = true -> existsb (fun p => snd p =? y + 1)%Z l = true -> poly = map ptZ l ->
    exists x y, (0 <= x <= 2)%Z /\ (0 <= y <= 1)%Z /\ tight_box poly (Box (IZR x) (IZR (x + 1)) (IZR y) (IZR (y + 1)))
    /\ (y = 1%Z -> 3 <= j <= 6)%Z
    /\ forall p, In p poly -> exists m n, p = Pt (IZR m) (IZR n) /\ (x <= m <= x + 1 /\ y <= n <= y + 1)%Z).
  { intros x y l Hx Hy Hj HA E1 E2 E3 E4 ->. exists x, y. rewrite forallb_forall in HA.
    apply existsb_exists in E1 as (e1 & I1 & E1), E2 as (e2 & I2 & E2), E3 as (e3 & I3 & E3), E4 as (e4 & I4 & E4).
    apply Z.eqb_eq in E1, E2, E3, E4.
    assert (HB : forall p, In p (map ptZ l) -> exists m n, p = Pt (IZR m) (IZR n) /\ (x <= m <= x + 1 /\ y <= n <= y + 1)%Z).
    { intros p Hp. apply in_map_iff in Hp as ((m, n) & <- & Hp). exists m, n. split; auto. specialize (HA _ Hp). cbn [fst snd] in HA. lia. }
    split; auto. split; auto. split; [|auto].
    apply c57_tight.
    - intros p Hp. destruct (HB p Hp) as (m & n & -> & (A & B) & C & D). cbn [px py]. split; split; now apply IZR_le.
    - exists (ptZ e1). split; [now apply in_map|]. cbn. now rewrite E1.
    - exists (ptZ e2). split; [now apply in_map|]. cbn. now rewrite E2.
    - exists (ptZ e3). split; [now apply in_map|]. cbn. now rewrite E3.
    - exists (ptZ e4). split; [now apply in_map|]. cbn. now rewrite E4. }
  intros (f & Hj & En & Hp).
  assert (Hjl : (j < 7)%Z) by (assert (Z.to_nat j < length (map (with_fill (-1)) grid_faces))%nat by (apply nth_error_Some; congruence); cbn in H; lia).
  assert (C : (j = 0 \/ j = 1 \/ j = 2 \/ j = 3 \/ j = 4 \/ j = 5 \/ j = 6)%Z) by lia.
  repeat destruct C as [C|C]; subst j; cbn in En; inversion En; subst f; clear En; unfold poly_of in Hp; cbn in Hp; invert_poly.
  - apply (G 0 0 [(0,0);(1,0);(1,1);(0,1)])%Z; auto; lia.
  - apply (G 1 0 [(1,0);(2,0);(2,1);(1,1)])%Z; auto; lia.
  - apply (G 2 0 [(2,0);(2,1);(3,1);(3,0)])%Z; auto; lia.
  - apply (G 0 1 [(0,1);(1,1);(1,2);(0,2)])%Z; auto; lia.
  - apply (G 1 1 [(1,1);(2,1);(2,2);(1,2)])%Z; auto; lia.
  - apply (G 2 1 [(2,1);(3,1);(3,2)])%Z; auto; lia.
  - apply (G 2 1 [(2,1);(2,2);(3,2)])%Z; auto; lia.
Qed.

(** the query edge and the faces of the upper row *)
Lemma c57_orient m n : orient (Pt (-3) 1) (Pt 6 2) (Pt (IZR m) (IZR n)) = IZR (9 * (n - 1) - (m + 3)).
Proof. unfold orient. cbn [px py]. rewrite minus_IZR, mult_IZR, minus_IZR, plus_IZR. lra. Qed.
Lemma abs_Z (z d : Z) : (d <= Z.abs z)%Z -> IZR d <= Rabs (IZR z).
Proof. intros H. rewrite <- abs_IZR. now apply IZR_le. Qed.

Lemma c57_clear (x : Z) (poly : list pt) : (0 <= x <= 2)%Z ->
  (forall p, In p poly -> exists m n, p = Pt (IZR m) (IZR n) /\ (x <= m <= x + 1 /\ 1 <= n <= 2)%Z) ->
  clear_line 16 (Pt (-3) 1) (Pt 6 2) poly /\ steep 8 (Pt (-3) 1) (Pt 6 2) poly.
Proof.
  intros Hx HP. destruct c56_small as (U1 & U2).
  assert (HE : forall u v, In (u, v) (poly_edges poly) -> crossed (Pt (-3) 1) (Pt 6 2) u v ->
    exists m n m' n', u = Pt (IZR m) (IZR n) /\ v = Pt (IZR m') (IZR n') /\ (x <= m <= x + 1 /\ x <= m' <= x + 1)%Z
      /\ (n = 1 /\ n' = 2 \/ n = 2 /\ n' = 1)%Z).
  { intros u v He C. apply edges_in in He as (Iu & Iv).
    destruct (HP u Iu) as (m & n & -> & Hm & Hn), (HP v Iv) as (m' & n' & -> & Hm' & Hn'). exists m, n, m', n'.
    split; auto. split; auto. split; [lia|]. unfold crossed in C. rewrite !c57_orient in C.
    assert (C' : (9 * (n - 1) - (m + 3) < 0 < 9 * (n' - 1) - (m' + 3) \/ 9 * (n' - 1) - (m' + 3) < 0 < 9 * (n - 1) - (m + 3))%Z).
    { destruct C as [(A & B)|(A & B)]; apply lt_IZR in A, B; lia. }
    lia. }
  split; [split|].
  - intros v Iv. destruct (HP v Iv) as (m & n & -> & Hm & Hn). rewrite c57_orient.
    apply Rlt_le_trans with (IZR 3); [|apply abs_Z; lia]. unfold uro in *. lra.
  - intros u v He C. destruct (HE u v He C) as (m & n & m' & n' & -> & -> & Hm & Hn).
    assert (B : 3 <= Rabs (orient (Pt (IZR m) (IZR n)) (Pt (IZR m') (IZR n')) (Pt (-3) 1))
                /\ 3 <= Rabs (orient (Pt (IZR m) (IZR n)) (Pt (IZR m') (IZR n')) (Pt 6 2))).
    { replace (orient (Pt (IZR m) (IZR n)) (Pt (IZR m') (IZR n')) (Pt (-3) 1)) with (IZR ((m' - m) * (1 - n) - (n' - n) * (-3 - m)))
        by (unfold orient; cbn [px py]; rewrite !minus_IZR, !mult_IZR, !minus_IZR; ring).
      replace (orient (Pt (IZR m) (IZR n)) (Pt (IZR m') (IZR n')) (Pt 6 2)) with (IZR ((m' - m) * (2 - n) - (n' - n) * (6 - m)))
        by (unfold orient; cbn [px py]; rewrite !minus_IZR, !mult_IZR, !minus_IZR; ring).
      split; apply (abs_Z _ 3); destruct Hn as [(-> & ->)|(-> & ->)]; lia. }
    unfold uro in *. lra.
  - intros u v He C. destruct (HE u v He C) as (m & n & m' & n' & -> & -> & Hm & Hn).
    replace (cross_uv (Pt (-3) 1) (Pt 6 2) (Pt (IZR m) (IZR n)) (Pt (IZR m') (IZR n'))) with (IZR (9 * (n' - n) - (m' - m)))
      by (unfold cross_uv; cbn [px py]; rewrite minus_IZR, mult_IZR, !minus_IZR; ring).
    apply (abs_Z _ 8). lia.
Qed.

(** a point well to one side of the face *)
Lemma c57_placed k tol poly (q : pt) : 0 <= tol <= / 1000 -> (k <= 3)%Z -> px q = -3 \/ px q = 6 ->
  (forall p, In p poly -> 0 <= px p <= 3) -> convex poly -> placed k tol poly q.
Proof.
  intros Ht Hk Hq HP HC. right.
  assert (B48 : bpow radix2 (k - 48) <= / 1000).
  { apply Rle_trans with (bpow radix2 (-45)); [apply bpow_le; lia|]. change (bpow radix2 (-45)) with (/ IZR (2 ^ 45)).
    change (2 ^ 45)%Z with 35184372088832%Z. lra. }
  pose proof (bpow_gt_0 radix2 (k - 48)). split.
  - intros Hh. destruct (ccw_version poly HC) as (Pc & Hc & HE). apply (hull_either Pc poly) in Hh; auto. apply in_poly_hull in Hh; auto.
    assert (HP' : forall v, In v Pc -> 0 <= px v <= 3) by (intros v Iv; apply HP; destruct HE as [->| ->]; auto; now apply in_rev in Iv).
    destruct Hq as [Hq|Hq].
    + assert (G : aff (-1) 0 (-1) q < 0) by (apply (in_poly_aff_lt Pc); auto; intros v Iv; unfold aff; specialize (HP' v Iv); lra).
      unfold aff in G. lra.
    + assert (G : aff 1 0 (-4) q < 0) by (apply (in_poly_aff_lt Pc); auto; intros v Iv; unfold aff; specialize (HP' v Iv); lra).
      unfold aff in G. lra.
  - intros (u & v & He & z & (s & Hs & ->) & Hd). apply edges_in in He as (Iu & Iv).
    pose proof (HP u Iu). pose proof (HP v Iv). pose proof (between1 (px u) (px v) s Hs) as Hz.
    assert (Hz' : 0 <= px (at_ u v s) <= 3).
    { unfold at_. cbn [px]. revert Hz. unfold Rmin, Rmax. destruct (Rle_dec _ _); lra. }
    unfold dist2 in Hd. pose proof (Rle_0_sqr (py q - py (at_ u v s))) as Sy. unfold Rsqr in Sy.
    assert (Sx : 9 <= (px q - px (at_ u v s)) * (px q - px (at_ u v s))).
    { destruct Hq as [Hq|Hq]; rewrite Hq.
      - replace ((-3 - px (at_ u v s)) * (-3 - px (at_ u v s))) with ((3 + px (at_ u v s)) * (3 + px (at_ u v s))) by ring.
        replace 9 with (3 * 3) by lra. apply Rmult_le_compat; lra.
      - replace 9 with (3 * 3) by lra. apply Rmult_le_compat; lra. }
    assert ((2 * tol + bpow radix2 (k - 48)) * (2 * tol + bpow radix2 (k - 48)) <= 1 * 1) by (apply Rmult_le_compat; lra).
    lra.
Qed.

(** ** Where the margins are needed *)

(** A face whose lower side has a node M that is not exactly on it (y = fl(1/3)
    at x = 1, on the side from (0, 0) to (3, 1)). The face is strictly convex, and
    the line y = x / 3 shares the whole side from (0, 0) to (3, 1) with it. The
    code takes (0, 0), M for collinear with the query edge and returns only that
    third. *)
Definition bent : list (point b64) :=
  [ptZ (0, 0)%Z; Pt (Zb 1) (B754_finite (prec:=prec) (emax:=emax) false 6004799503160661 (-54) eq_refl); ptZ (3, 1)%Z; ptZ (3, 3)%Z; ptZ (0, 3)%Z].
Definition bent_query : list (point b64 * point b64) := [(ptZ (-3, -1)%Z, ptZ (6, 2)%Z)].
Definition bent_third : R := 6004799503160661 / 18014398509481984.

Lemma bent_points : map rp bent = [Pt 0 0; Pt 1 bent_third; Pt 3 1; Pt 3 3; Pt 0 3].
Proof.
  assert (V : forall n, (Z.abs n <= 8)%Z -> B2R (Zb n) = IZR n) by (intros n Hn; apply Zb_exact; lia).
  unfold bent. cbn [map]. unfold rp, ptZ. cbn [px py fst snd]. change (@nofZ b64 _) with Zb. rewrite !V by lia. repeat f_equal.
Qed.

Lemma bent_convex : convex_ccw (map rp bent).
Proof. rewrite bent_points. unfold bent_third. convex_check. Qed.

Definition run_edges (g g' : garbage b64) (vs : list (point b64)) (faces : list (list Z)) (queries : list (point b64 * point b64)) :=
  match CellTree2d_init g vs faces (-1) 4 2 with
  | Ok t => match CellTree2d_intersect_edges g' 4 1 t queries with Ok l => Some l | Err _ => None end
  | Err _ => None
  end.

Definition same_pt (p q : point b64) : bool :=
  is_finite (px p) && is_finite (py p) && is_finite (px q) && is_finite (py q) && neqb (px p) (px q) && neqb (py p) (py q).
Lemma same_pt_rp p q : same_pt p q = true -> rp p = rp q.
Proof.
  unfold same_pt. rewrite !andb_true_iff. intros (((((F1 & F2) & F3) & F4) & E1) & E2).
  rewrite neqb_B in E1, E2 by auto. unfold rp. f_equal.
  - revert E1. case Req_bool_spec; auto. discriminate.
  - revert E2. case Req_bool_spec; auto. discriminate.
Qed.

Lemma bent_run g g' : match run_edges g g' bent [[0; 1; 2; 3; 4]]%Z bent_query with
  | Some [(ij, (Some c, Some d))] => same_pt c (ptZ (0, 0)%Z) && same_pt d (nth 1 bent (ptZ (0, 0)%Z))
  | _ => false end = true.
Proof. vm_compute. reflexivity. Qed.

Theorem C57_float_bent_side_refuted :
  exists (vs : list (point b64)) queries a b, queries = [(a, b)] /\ mesh_ok vs [[0; 1; 2; 3; 4]]%Z (-1) /\ bounded_vertices 3 vs
    /\ convex_ccw (map rp vs)
    (* both ends of the query edge are out of the face and not near it *)
    /\ placed 3 (/ 1000) (map rp vs) (rp a) /\ placed 3 (/ 1000) (map rp vs) (rp b)
    (* the common part of edge and face *)
    /\ clip_result (hull (map rp vs)) (rp a) (rp b) (Some (Pt 0 0, Pt 3 1))
    (* what is returned *)
    /\ forall g g', exists t ij c d, CellTree2d_init (T:=b64) g vs [[0; 1; 2; 3; 4]]%Z (-1) 4 2 = Ok t
         /\ CellTree2d_intersect_edges g' 4 1 t queries = Ok [(ij, (Some c, Some d))]
         /\ rp c = Pt 0 0 /\ px (rp d) = 1.
Proof.
  assert (V : forall n, (Z.abs n <= 8)%Z -> B2R (Zb n) = IZR n) by (intros n Hn; apply Zb_exact; lia).
  assert (EA : rp (ptZ (-3, -1)%Z) = Pt (-3) (-1)) by (unfold rp, ptZ; cbn [px py fst snd]; change (@nofZ b64 _) with Zb; rewrite !V by lia; reflexivity).
  assert (EB : rp (ptZ (6, 2)%Z) = Pt 6 2) by (unfold rp, ptZ; cbn [px py fst snd]; change (@nofZ b64 _) with Zb; rewrite !V by lia; reflexivity).
  exists bent, bent_query, (ptZ (-3, -1)%Z), (ptZ (6, 2)%Z). split; [reflexivity|]. split; [|split; [|split; [|split; [|split; [|split]]]]].
  - constructor; [repeat constructor|discriminate|]. cbn [map]. repeat constructor; vm_compute; intuition (try discriminate; try lia).
  - unfold bent. assert (Bt : forall n, (Z.abs n <= 8)%Z -> bounded 3 (Zb n)) by (intros; apply bounded_Zb; lia).
    assert (B0 : bounded 3 (py (nth 1 bent (ptZ (0, 0)%Z)))).
    { split; [reflexivity|]. pose proof (f_equal (fun l => py (nth 1 l (Pt 0 0))) bent_points) as E. cbn [map bent nth] in E.
      unfold rp in E at 1. cbn [py] in E. cbn [bent nth py]. rewrite E. unfold bent_third. change (bpow radix2 3) with 8. rewrite Rabs_pos_eq; lra. }
    repeat apply Forall_cons; try apply Forall_nil; split; cbn [px py ptZ fst snd]; try exact B0; apply Bt; lia.
  - exact bent_convex.
  - apply c57_placed; [lra|lia|rewrite EA; left; reflexivity| |left; exact bent_convex].
    intros p Ip. rewrite bent_points in Ip. cbn [In] in Ip. repeat destruct Ip as [<-|Ip]; try contradiction; cbn [px]; lra.
  - apply c57_placed; [lra|lia|rewrite EB; right; reflexivity| |left; exact bent_convex].
    intros p Ip. rewrite bent_points in Ip. cbn [In] in Ip. repeat destruct Ip as [<-|Ip]; try contradiction; cbn [px]; lra.
  - rewrite EA, EB. split; [intros H; injection H; lra|]. exists (/ 3), (2 / 3). split; [lra|]. split; [lra|].
    split; [unfold at_; cbn [px py]; f_equal; lra|]. split; [unfold at_; cbn [px py]; f_equal; lra|].
    intros u Hu. rewrite <- (in_poly_hull _ _ bent_convex), bent_points. unfold bent_third. split.
    + intros H. pose proof (H (Pt 3 1) (Pt 3 3) ltac:(cbn; tauto)) as G1. pose proof (H (Pt 0 3) (Pt 0 0) ltac:(cbn; tauto)) as G2.
      unfold orient, at_ in G1, G2. cbn [px py] in G1, G2. lra.
    + intros H x y He. cbn in He. repeat destruct He as [He|He]; try contradiction; inversion He; subst x y; unfold orient, at_; cbn [px py]; lra.
  - intros g g'. pose proof (bent_run g g') as H. unfold run_edges in H.
    destruct (CellTree2d_init g bent [[0; 1; 2; 3; 4]]%Z (-1) 4 2) as [t|]; [|discriminate].
    destruct (CellTree2d_intersect_edges g' 4 1 t bent_query) as [rows|] eqn:ER; [|discriminate].
    destruct rows as [|(ij, ([c|], [d|])) [|]]; try discriminate. apply andb_prop in H as (H1 & H2).
    apply same_pt_rp in H1, H2. exists t, ij, c, d. split; auto. split; auto.
    rewrite H1, H2. unfold bent, rp, ptZ. cbn [nth px py fst snd]. change (@nofZ b64 _) with Zb. rewrite !V by lia. auto.
Qed.

Lemma c57_query t : CellTree2d_init (T:=b64) g0 grid grid_faces (-1) 4 2 = Ok t ->
  Forall (mesh_query 3 (celltree_data t) (@grid R _) grid_faces (-1)) c57_queries.
Proof.
  intros E. pose proof (c57_box t E) as (K1 & K2 & K3 & K4).
  assert (V : forall n, (Z.abs n <= 8)%Z -> B2R (Zb n) = IZR n) by (intros n Hn; apply Zb_exact; lia).
  set (A := Pt (Zb (-3)) (Zb 1)). set (B := Pt (Zb 6) (Zb 2)).
  assert (EA : rp A = Pt (-3) 1) by (unfold rp, A; cbn [px py]; rewrite !V by lia; reflexivity).
  assert (EB : rp B = Pt 6 2) by (unfold rp, B; cbn [px py]; rewrite !V by lia; reflexivity).
  assert (S250 : bpow radix2 (-250) <= 1) by (change 1 with (bpow radix2 0); apply bpow_le; lia).
  assert (SM : 0 < bpow radix2 (3 - 45) <= / 1000).
  { change (bpow radix2 (3 - 45)) with (/ IZR (2 ^ 42)). change (2 ^ 42)%Z with 4398046511104%Z. lra. }
  constructor; [|constructor]. change (mesh_query 3 (celltree_data t) (@grid R _) grid_faces (-1) (A, B)). unfold mesh_query. cbn [fst snd].
  split; [split; apply bounded_Zb; lia|]. split; [split; apply bounded_Zb; lia|]. rewrite EA, EB. split; [|split].
  - split; right; cbn [px py]; rewrite Rabs_pos_eq; lra.
  - intros x v (s & Hs & ->) (Hx & Hy) (C1 & C2). rewrite K1, K2 in Hx. rewrite K3, K4 in Hy. apply Rabs_le_iff in C1, C2.
    cbn [px py at_] in *. destruct Hx as [Hx|Hx], Hy as [Hy|Hy]; lra.
  - intros j poly HF. destruct (c57_faces j poly HF) as (x & y & Hx & Hy & HT & Hj & HV).
    exists (Box (IZR x) (IZR (x + 1)) (IZR y) (IZR (y + 1))). split; auto.
    assert (Hx' : 0 <= IZR x <= 2) by (split; apply IZR_le; lia). 
    destruct (Z.eq_dec y 0) as [->|N].
    + left. intros p q (s & Hs & ->) ((Q1 & Q2) & Q3 & Q4) (C1 & C2). apply Rabs_le_iff in C1, C2. cbn [px py at_ xmin xmax ymin ymax Z.add] in *. lra.
    + assert (y = 1%Z) by lia. subst y. right. rewrite (plus_IZR x). change (1 + 1)%Z with 2%Z.
      assert (FT : 0 <= 1.001 * face_tol (Box (IZR x) (IZR x + 1) 1 2) <= / 1000).
      { pose proof (face_tol_pos (Box (IZR x) (IZR x + 1) 1 2)). split; [lra|]. unfold face_tol. cbn [xmin xmax ymin ymax].
        assert (Rmax (/ 1000000000000000) (/ 1000000000000 * Rmax (IZR x + 1 - IZR x) (2 - 1)) <= / 1000000000000).
        { apply Rmax_lub; [lra|]. assert (Rmax (IZR x + 1 - IZR x) (2 - 1) <= 1) by (apply Rmax_lub; lra). lra. }
        lra. }
      assert (HP : forall p, In p poly -> 0 <= px p <= 3 /\ 1 <= py p <= 2).
      { intros p Ip. destruct (HV p Ip) as (m & n & -> & Hm & Hn). cbn [px py]. split; split; apply IZR_le; lia. }
      pose proof (grid_convex j poly HF) as HC.
      split; [|split; [|split]].
      * intros p v (s & Hs & ->) (Cx & Cy) (C1 & C2). apply Rabs_le_iff in C1, C2. cbn [px py at_ xmin xmax ymin ymax] in *.
        destruct Cx as [Cx|Cx], Cy as [Cy|Cy]; lra.
      * apply c57_placed; auto; try lia. intros p Ip. now apply HP.
      * apply c57_placed; auto; try lia. intros p Ip. now apply HP.
      * exists 16. change (bpow radix2 (3 + 1)) with 16. split; [lra|]. split; [|exact (proj1 (c57_clear x poly Hx HV))].
        assert (G : forall z, In z (Pt (-3) 1 :: Pt 6 2 :: poly) -> -3 <= px z <= 6 /\ 1 <= py z <= 2).
        { intros z [<-|[<-|Hz]]; cbn [px py]; [lra|lra|]. specialize (HP z Hz). lra. }
        intros p q Ip Iq. apply G in Ip, Iq. split; apply Rabs_le_iff; lra.
Qed.

Lemma c57_ends (poly : list pt) (lo hi : R) c d e : 0 <= lo -> lo < hi -> hi <= 1 ->
  (forall s, hull poly (at_ (Pt (-3) 1) (Pt 6 2) s) <-> lo <= s <= hi) ->
  clip_close e (hull poly) (Pt (-3) 1) (Pt 6 2) (Some (c, d)) ->
  close e c (at_ (Pt (-3) 1) (Pt 6 2) lo) /\ close e d (at_ (Pt (-3) 1) (Pt 6 2) hi).
Proof.
  intros H0 H1 H2 HH (c' & d' & (_ & s & u & A1 & A2 & -> & -> & A5) & C1 & C2).
  assert (Es : s = lo).
  { apply Rle_antisym; [apply (A5 lo); [lra|]; apply HH; lra|]. apply (HH s). apply A5; lra. }
  assert (Eu : u = hi).
  { apply Rle_antisym; [|apply (A5 hi); [lra|]; apply HH; lra]. apply (HH u). apply A5; lra. }
  subst s u. auto.
Qed.

Example C57_float_intersect_edges_example : exists t rows c1 c2 d1 d2,
  CellTree2d_init (T:=b64) g0 grid grid_faces (-1) 4 2 = Ok t
  /\ CellTree2d_intersect_edges g0 4 2 t c57_queries = Ok rows
  /\ In ((0, 5)%Z, (Some c1, Some c2)) rows
  /\ close (bpow radix2 (-40)) (rp c1) (Pt (21 / 8) (13 / 8)) /\ close (bpow radix2 (-40)) (rp c2) (Pt 3 (5 / 3))
  /\ In ((0, 6)%Z, (Some d1, Some d2)) rows
  /\ close (bpow radix2 (-40)) (rp d1) (Pt 2 (14 / 9)) /\ close (bpow radix2 (-40)) (rp d2) (Pt (21 / 8) (13 / 8))
  /\ (forall i j c, In ((i, j), c) rows -> i = 0%Z /\ (3 <= j <= 6)%Z).
Proof.
  destruct grid_built_B64 as (t & E & _). pose proof (c57_query t E) as HQ.
  assert (BG : bounded_vertices 3 (@grid b64 _)) by (apply zbounded; [lia|vm_compute; reflexivity]).
  assert (HPl : faces_plain (@grid R _) grid_faces (-1)).
  { intros j poly K HF HT. destruct (c57_faces j poly HF) as (x & y & _ & _ & HT' & _). rewrite (tight_fun _ _ _ HT HT').
    assert (S250 : bpow radix2 (-250) <= 1) by (change 1 with (bpow radix2 0); apply bpow_le; lia).
    unfold plain_box. cbn [xmin xmax ymin ymax]. rewrite !plus_IZR. lra. }
  pose proof (C57_float_intersect_edges 3 g0 grid grid_faces (-1) 4 2 t ltac:(lia) grid_mesh_B64 BG) as H. rewrite grid_rp in H.
  destruct (H grid_convex (sides_ok_Z grid_pts _ _ grid_convex) HPl E c57_queries HQ) as (rows & HR & _ & _ & HIJ & HX). clear H.
  assert (V : forall n, (Z.abs n <= 8)%Z -> B2R (Zb n) = IZR n) by (intros n Hn; apply Zb_exact; lia).
  set (A := Pt (Zb (-3)) (Zb 1)) in *. set (B := Pt (Zb 6) (Zb 2)) in *.
  assert (EA : rp A = Pt (-3) 1) by (unfold rp, A; cbn [px py]; rewrite !V by lia; reflexivity).
  assert (EB : rp B = Pt 6 2) by (unfold rp, B; cbn [px py]; rewrite !V by lia; reflexivity).
  assert (S250 : bpow radix2 (-250) <= 1) by (change 1 with (bpow radix2 0); apply bpow_le; lia).
  assert (SM : 0 < bpow radix2 (3 - 46) <= / 1000).
  { change (bpow radix2 (3 - 46)) with (/ IZR (2 ^ 43)). change (2 ^ 43)%Z with 8796093022208%Z. lra. }
  assert (EE : 0 < cyrus_err 3 16 8 (Pt (-3) 1) (Pt 6 2) <= bpow radix2 (-40)).
  { unfold cyrus_err, reach. cbn [px py]. rewrite !Rabs_pos_eq by lra. rewrite Rmax_left by lra. change (bpow radix2 3) with 8.
    unfold uro. change (bpow radix2 (-53)) with (/ IZR (2 ^ 53)). change (2 ^ 53)%Z with 9007199254740992%Z.
    change (bpow radix2 (-40)) with (/ IZR (2 ^ 40)). change (2 ^ 40)%Z with 1099511627776%Z. lra. }
  assert (S40 : bpow radix2 (-40) <= / 1000).
  { change (bpow radix2 (-40)) with (/ IZR (2 ^ 40)). change (2 ^ 40)%Z with 1099511627776%Z. lra. }
  (* a face of the upper row with a common part of some length *)
  assert (ROW : forall j poly x lo hi, face_poly (@grid R _) grid_faces (-1) j poly -> (0 <= x <= 2)%Z ->
    tight_box poly (Box (IZR x) (IZR x + 1) 1 2) ->
    (forall p, In p poly -> exists m n, p = Pt (IZR m) (IZR n) /\ (x <= m <= x + 1 /\ 1 <= n <= 2)%Z) ->
    / 3 <= lo -> lo + / 100 <= hi -> hi <= 2 / 3 -> (forall s, hull poly (at_ (Pt (-3) 1) (Pt 6 2) s) <-> lo <= s <= hi) ->
    deep (/ 1000) (Box (IZR x) (IZR x + 1) 1 2) (at_ (Pt (-3) 1) (Pt 6 2) ((lo + hi) / 2)) ->
    exists c1 c2, In ((0%Z, j), (Some c1, Some c2)) rows /\ close (bpow radix2 (-40)) (rp c1) (at_ (Pt (-3) 1) (Pt 6 2) lo)
       /\ close (bpow radix2 (-40)) (rp c2) (at_ (Pt (-3) 1) (Pt 6 2) hi)).
  { intros j poly x lo hi HF Hx HT HV L1 L2 L3 HH HD.
    destruct (HX 0%Z j A B poly _ ltac:(lia) eq_refl HF HT) as (_ & G). rewrite EA, EB in G.
    destruct (c57_clear x poly Hx HV) as (CL & ST).
    assert (AN : all_near 16 (Pt (-3) 1 :: Pt 6 2 :: poly)).
    { assert (G0 : forall z, In z (Pt (-3) 1 :: Pt 6 2 :: poly) -> -3 <= px z <= 6 /\ 1 <= py z <= 2).
      { intros z [<-|[<-|Hz]]; cbn [px py]; [lra|lra|]. destruct (HV z Hz) as (m & n & -> & Hm & Hn). cbn [px py].
        split; split; apply IZR_le; lia. }
      intros p q Ip Iq. apply G0 in Ip, Iq. split; apply Rabs_le_iff; lra. }
    destruct (G 16 8 ltac:(change (bpow radix2 (3 + 1)) with 16; lra) ltac:(lra) AN CL ST) as (G1 & G2). clear G.
    destruct (G2 (at_ (Pt (-3) 1) (Pt 6 2) ((lo + hi) / 2)) (at_ (Pt (-3) 1) (Pt 6 2) lo)) as (c & Ic).
    - exists ((lo + hi) / 2). split; [lra|reflexivity].
    - exists lo. split; [lra|reflexivity].
    - apply HH. lra.
    - apply HH. lra.
    - destruct HD as (D1 & D2). split; lra.
    - intros (C1 & _). apply Rabs_le_iff in C1. unfold at_ in C1. cbn [px] in C1. lra.
    - destruct (G1 c Ic) as (c1 & c2 & -> & Hcc). exists c1, c2. split; auto.
      destruct (c57_ends poly lo hi (rp c1) (rp c2) _ ltac:(lra) ltac:(lra) ltac:(lra) HH Hcc) as (C1 & C2).
      split; [revert C1|revert C2]; apply close_le; apply EE. }
  assert (F5 : face_poly (@grid R _) grid_faces (-1) 5 [ptZ (2, 1); ptZ (3, 1); ptZ (3, 2)]%Z).
  { exists [6; 7; 11; -1]%Z; (split; [lia|]); (split; [reflexivity|]); unfold poly_of; cbn; repeat constructor; auto; lia. }
  assert (C5 : convex_ccw [ptZ (2, 1); ptZ (3, 1); ptZ (3, 2)]%Z) by convex_check.
  assert (C6 : convex_ccw [ptZ (3, 2); ptZ (2, 2); ptZ (2, 1)]%Z) by convex_check.
  assert (T5 : tight_box [ptZ (2, 1); ptZ (3, 1); ptZ (3, 2)]%Z (Box 2 (2 + 1) 1 2)).
  { apply c57_tight.
    - intros p [<-|[<-|[<-|[]]]]; cbn; lra.
    - exists (ptZ (2, 1)%Z). split; [now left|reflexivity].
    - exists (ptZ (3, 1)%Z). split; [right; now left|cbn; lra].
    - exists (ptZ (2, 1)%Z). split; [now left|reflexivity].
    - exists (ptZ (3, 2)%Z). split; [do 2 right; now left|reflexivity]. }
  assert (T6 : tight_box [ptZ (2, 1); ptZ (2, 2); ptZ (3, 2)]%Z (Box 2 (2 + 1) 1 2)).
  { apply c57_tight.
    - intros p [<-|[<-|[<-|[]]]]; cbn; lra.
    - exists (ptZ (2, 1)%Z). split; [now left|reflexivity].
    - exists (ptZ (3, 2)%Z). split; [do 2 right; now left|cbn; lra].
    - exists (ptZ (2, 1)%Z). split; [now left|reflexivity].
    - exists (ptZ (3, 2)%Z). split; [do 2 right; now left|reflexivity]. }
  destruct (ROW 5%Z _ 2%Z (5 / 8) (2 / 3) F5 ltac:(lia) T5) as (c1 & c2 & I5 & C1 & C2); try lra.
  { intros p [<-|[<-|[<-|[]]]]; [exists 2%Z, 1%Z|exists 3%Z, 1%Z|exists 3%Z, 2%Z]; (split; [reflexivity|lia]). }
  { intros s. rewrite <- in_poly_hull by assumption. split.
    - intros Hin. pose proof (Hin (ptZ (3, 1)%Z) (ptZ (3, 2)%Z) ltac:(cbn; tauto)) as G1.
      pose proof (Hin (ptZ (3, 2)%Z) (ptZ (2, 1)%Z) ltac:(cbn; tauto)) as G2. unfold orient, at_ in G1, G2. cbn in G1, G2. lra.
    - intros Hs u v He. cbn in He. repeat destruct He as [He|He]; try contradiction; inversion He; subst u v; unfold orient, at_; cbn; lra. }
  { split; cbn; lra. }
  destruct (ROW 6%Z _ 2%Z (5 / 9) (5 / 8) tri_b ltac:(lia) T6) as (d1 & d2 & I6 & D1 & D2); try lra.
  { intros p [<-|[<-|[<-|[]]]]; [exists 2%Z, 1%Z|exists 2%Z, 2%Z|exists 3%Z, 2%Z]; (split; [reflexivity|lia]). }
  { intros s. rewrite <- (hull_either [ptZ (2, 1); ptZ (2, 2); ptZ (3, 2)]%Z [ptZ (3, 2); ptZ (2, 2); ptZ (2, 1)]%Z) by (right; reflexivity).
    rewrite <- in_poly_hull by assumption. split.
    - intros Hin. pose proof (Hin (ptZ (2, 2)%Z) (ptZ (2, 1)%Z) ltac:(cbn; tauto)) as G1.
      pose proof (Hin (ptZ (2, 1)%Z) (ptZ (3, 2)%Z) ltac:(cbn; tauto)) as G2. unfold orient, at_ in G1, G2. cbn in G1, G2. lra.
    - intros Hs u v He. cbn in He. repeat destruct He as [He|He]; try contradiction; inversion He; subst u v; unfold orient, at_; cbn; lra. }
  { split; cbn; lra. }
  assert (P1 : at_ (Pt (-3) 1) (Pt 6 2) (5 / 8) = Pt (21 / 8) (13 / 8)) by (unfold at_; cbn [px py]; f_equal; lra).
  assert (P2 : at_ (Pt (-3) 1) (Pt 6 2) (2 / 3) = Pt 3 (5 / 3)) by (unfold at_; cbn [px py]; f_equal; lra).
  assert (P3 : at_ (Pt (-3) 1) (Pt 6 2) (5 / 9) = Pt 2 (14 / 9)) by (unfold at_; cbn [px py]; f_equal; lra).
  rewrite P1 in C1, D2. rewrite P2 in C2. rewrite P3 in D1.
  exists t, rows, c1, c2, d1, d2. split; auto. split; [apply HR; lia|]. do 6 (split; [assumption|]).
  intros i j c Hin. destruct (HIJ i j c Hin) as (Hi & poly & HF). change (zlen c57_queries) with 1%Z in Hi.
  assert (i = 0%Z) by lia. subst i. split; auto.
  destruct (c57_faces j poly HF) as (x & y & Hx & Hy & HT & Hj & _). destruct (Z.eq_dec y 1) as [Ey|Ey]; [auto|].
  exfalso. assert (y = 0%Z) by lia. subst y. revert Hin.
  apply (proj1 (HX 0%Z j A B poly _ ltac:(lia) eq_refl HF HT)). rewrite EA, EB.
  assert (SM' : 0 < bpow radix2 (3 - 45) <= / 1000).
  { change (bpow radix2 (3 - 45)) with (/ IZR (2 ^ 42)). change (2 ^ 42)%Z with 4398046511104%Z. lra. }
  assert (Hx' : 0 <= IZR x <= 2) by (split; apply IZR_le; lia).
  intros p q (s & Hs & ->) ((Q1 & Q2) & Q3 & Q4) (R1 & R2). apply Rabs_le_iff in R1, R2. cbn [px py at_ xmin xmax ymin ymax Z.add] in *. lra.
Qed.

Print Assumptions C57_float_cyrus_beck.
Print Assumptions C57_float_intersect_edges.
Print Assumptions C57_float_bent_side_refuted.
Print Assumptions C57_float_intersect_edges_example.
