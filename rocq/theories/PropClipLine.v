(** Property theorems over exact reals: clipping segments by polygons (C19). *)
From Verif Require Import RBase MGeometry MAlgorithms MQuery MCelltree SpecTree SpecQuery SpecApi SpecGeom SpecPoly SpecMesh
  PMesh PInit PBuild PQuery PPoints PTreeFacts PApi NumSub GBox GEdges GLines GTriangle GConvex GHull GRay GCcw GBuild GFaces
  GCyrus GTreeEdges GClipLine PropSmall Examples PropEdges PropPoints.
Open Scope R_scope.

(** ** C19: Cyrus-Beck is exact for strictly convex polygons *)

(** the end points are in the polygon, or out of reach of the tolerance: *)
Definition off_band (r : R) (poly : list pt) (x : pt) : Prop := hull poly x \/ ~ near_boundary r poly x.

Theorem C19_cyrus_beck_exact (a b : pt) poly tol : convex_ccw poly -> 0 < tol ->
  off_band (2 * tol) poly a -> off_band (2 * tol) poly b ->
  exists r, cyrus_beck_line_polygon_clip a b poly tol = Ok r /\ clip_result (hull poly) a b r.
Proof.
  intros HC Ht Ha Hb.
  assert (H : forall x, x = a \/ x = b -> in_poly poly x \/ ~ near_boundary (2 * tol) poly x).
  { intros x [->| ->]; [destruct Ha|destruct Hb]; auto; left; now apply in_poly_hull. }
  destruct (cyrus_beck_exact a b poly tol HC Ht H) as (r & E & C). exists r. split; auto.
  destruct r as [(c, d)|]; cbn [clip_result] in *.
  - destruct C as (Hab & s & t & Hs & H1 & Ec & Ed & Hu). split; auto. exists s, t. split; auto. split; auto. split; auto. split; auto.
    intros u Hu0. rewrite <- (Hu u Hu0). symmetry. now apply in_poly_hull.
  - intros x y Hx Hy Sx Sy. apply C; auto; now apply in_poly_hull.
Qed.

(** whatever the polygon and the tolerance, only a piece of the segment is
    returned, in the direction of the segment *)
Theorem C19_points_on_segment (a b : pt) poly tol c d :
  cyrus_beck_line_polygon_clip a b poly tol = Ok (Some (c, d)) ->
  a <> b /\ exists s t, 0 <= s < t /\ t <= 1 /\ c = at_ a b s /\ d = at_ a b t.
Proof.
  unfold cyrus_beck_line_polygon_clip. destruct (_ && _)%bool eqn:Es; [discriminate|].
  assert (Hab : a <> b).
  { intros ->. unfold to_vector in Es. rsimp. cbn [px py] in Es. rewrite !Req_bool_true in Es by ring. discriminate. }
  intros H. split; auto.
  destruct (list_eq_dec pt_dec poly []) as [->|Hn].
  { cbn in H. discriminate. }
  destruct (pip_totalR a poly tol Hn) as (ia & Ea). destruct (pip_totalR b poly tol Hn) as (ib & Eb).
  rewrite Ea, Eb in H. cbn [bind] in H. destruct (ia && ib)%bool.
  { inversion H; subst. exists 0, 1. rewrite at_0, at_1. repeat split; auto; lra. }
  destruct (aget_ok_pos poly 0) as (v & E & _).
  { destruct poly; [congruence|]. unfold zlen. simpl length. lia. }
  rewrite E in H. cbn [bind] in H. change (cross_product (to_vector a v) (to_vector a b)) with (side a b v) in H.
  destruct (search_ok a b poly v E) as ([r|((k, i0), i1)] & Er & HS); rewrite Er in H; cbn [bind] in H.
  - destruct HS as (i & v0 & v1 & He & (F0 & F1) & ->). rewrite side_orient in F0, F1.
    destruct (on_line a b v0 Hab ltac:(lra)) as (t0 & ->). destruct (on_line a b v1 Hab ltac:(lra)) as (t1 & ->).
    rewrite (collinear_ok a b Hab) in H. unfold clipI in H.
    destruct (Rmax_cases 0 (Rmin t0 t1)) as ((M1 & M2) & M3). destruct (Rmin_cases 1 (Rmax t0 t1)) as ((N1 & N2) & N3).
    revert H. rcase; [|discriminate]. intros HH. apply Ok_inj in HH. injection HH as <- <-.
    exists (Rmax 0 (Rmin t0 t1)), (Rmin 1 (Rmax t0 t1)). repeat split; auto; lra.
  - destruct HS as [(-> & HQ)|(-> & Hlt & (v0 & v01 & E0 & C0) & (v1 & v11 & E1 & C1) & HQ)]; cbn [Z.eqb] in H; [discriminate|].
    rewrite (intersections_ok a b poly i0 i1 v0 v01 v1 v11) in H by auto. cbn [bind] in H. apply Ok_inj in H.
    destruct (if Rlt_bool _ _ then _ else _) as (t0, t1). cbn [fst snd] in H.
    assert (G : forall t0 t1, t0 <> t1 ->
      (let u0 := if Rlt_bool t1 t0 then t1 else t0 in
       let u1 := if Rlt_bool t1 t0 then t0 else t1 in
       let valid0 := (Rle_bool 0 u0 && Rlt_bool u0 1)%bool in
       let valid1 := (Rlt_bool 0 u1 && Rle_bool u1 1)%bool in
       if (valid0 && valid1)%bool then Some (to_point u0 a (to_vector a b), to_point u1 a (to_vector a b))
       else if valid0 then Some (to_point u0 a (to_vector a b), b)
       else if valid1 then Some (a, to_point u1 a (to_vector a b)) else None) = Some (c, d) ->
      exists s t, 0 <= s < t /\ t <= 1 /\ c = at_ a b s /\ d = at_ a b t).
    { clear. intros t0 t1 Hne. cbv zeta. rewrite !to_point_L.
      assert (G : forall lo hi, lo < hi ->
        (if (Rle_bool 0 lo && Rlt_bool lo 1 && (Rlt_bool 0 hi && Rle_bool hi 1))%bool then Some (at_ a b lo, at_ a b hi)
         else if (Rle_bool 0 lo && Rlt_bool lo 1)%bool then Some (at_ a b lo, b)
         else if (Rlt_bool 0 hi && Rle_bool hi 1)%bool then Some (a, at_ a b hi) else None) = Some (c, d) ->
        exists s t, 0 <= s < t /\ t <= 1 /\ c = at_ a b s /\ d = at_ a b t).
      { intros lo hi Hl. repeat (rcase; cbn [andb]); intros HH; try discriminate; injection HH as <- <-.
        all: try (exists lo, hi; repeat split; auto; lra).
        all: try (exists lo, 1; rewrite at_1; repeat split; auto; lra).
        all: exists 0, hi; rewrite at_0; repeat split; auto; lra. }
      destruct (Rlt_or_le t1 t0).
      - rewrite (Rlt_bool_true t1 t0) by auto. apply G; auto.
      - rewrite (Rlt_bool_false t1 t0) by auto. apply G. lra. }
    revert H. unfold cb_finish. rsimp. destruct (Req_dec t0 t1) as [->|N].
    + rewrite (Req_bool_true t1 t1) by auto. destruct (ia && _)%bool eqn:E2; [|destruct (ib && _)%bool eqn:E3; [|discriminate]].
      * apply G. intros <-. rewrite Req_bool_true in E2 by auto. cbn in E2. rewrite andb_false_r in E2. discriminate.
      * apply G. intros ->. rewrite Req_bool_true in E3 by auto. cbn in E3. rewrite andb_false_r in E3. discriminate.
    + rewrite (Req_bool_false t0 t1) by auto. now apply G.
Qed.

(** ** intersect_edges on convex meshes *)

(** the tolerance used for the face [poly] *)
Definition poly_tol (poly : list pt) (tol : R) : Prop := exists K, tight_box poly K /\ tol = face_tol K.

Lemma tight_box_rev (poly : list pt) K : tight_box (rev poly) K -> tight_box poly K.
Proof.
  unfold tight_box. rewrite !Forall_forall, !Exists_exists.
  assert (G : forall P : pt -> Prop, (exists x, In x (rev poly) /\ P x) -> exists x, In x poly /\ P x).
  { intros P (x & Hi & He). exists x. split; auto. now apply in_rev. }
  intros (H0 & H1 & H2 & H3 & H4). split; [intros x Hx; apply H0; now apply -> in_rev|]. auto 10.
Qed.

Lemma face_tol_pos K : 0 < face_tol K.
Proof. unfold face_tol. apply Rlt_le_trans with (/ 1000000000000000); [lra|apply Rmax_l]. Qed.

Lemma hull_in_box poly K x : tight_box poly K -> hull poly x -> in_box K x.
Proof.
  intros HT Hx. destruct (tight_box_hull _ _ _ HT Hx) as (A & B & C & D). rsimp. rb. split; split; auto.
Qed.

Theorem C19_intersect_edges_geometric g vs faces fill nb cpl (t : tree2d (T:=R)) :
  mesh_ok vs faces fill -> convex_mesh vs faces fill -> CellTree2d_init g vs faces fill nb cpl = Ok t ->
  forall edges, exists rows,
    (forall g' csfuel n_threads, (4 <= csfuel)%nat -> (1 <= n_threads)%nat ->
       CellTree2d_intersect_edges g' csfuel n_threads t edges = Ok rows)
    /\ NoDup (map fst rows)
    (* edges and faces by number *)
    /\ (forall i j c, In ((i, j), c) rows -> exists ab poly, (0 <= i)%Z /\ nth_error edges (Z.to_nat i) = Some ab
          /\ face_poly vs faces fill j poly)
    (* a row for every edge and face with more than one common point: their common part *)
    /\ forall i j a b poly, nth_error edges i = Some (a, b) -> face_poly vs faces fill j poly ->
         (forall tol, poly_tol poly tol -> off_band (2 * tol) poly a /\ off_band (2 * tol) poly b) ->
         (forall c, In ((Z.of_nat i, j), c) rows <->
            exists c1 c2, c = (Some c1, Some c2) /\ clip_result (hull poly) a b (Some (c1, c2)))
         /\ ((exists c, In ((Z.of_nat i, j), c) rows) <-> shares (hull poly) a b).
Proof.
  intros Hm Hc E edges. destruct (C15_intersect_edges_brute_force _ _ _ _ _ _ _ Hm E edges) as (rows & H1 & H2 & H3).
  pose proof (init_built _ _ _ _ _ _ _ Hm E) as Hb.
  exists rows. split; auto. split; auto. split.
  - intros i j c Hin. apply H3 in Hin as (a & b & c1 & c2 & H0 & En & (poly & K & (Hj & f & Ef & _) & _) & _).
    destruct (stored_back _ _ _ _ _ _ _ _ _ Hm E Hj Ef) as (poly' & Hp'). eauto 10.
  - intros i j a b poly En Hp Hband.
    destruct (stored_poly _ _ _ _ _ _ _ _ _ Hm Hc E Hp) as (f' & poly' & K & H0 & Ef & EK & Hp' & Hcc & Ho & HT).
    assert (HT' : tight_box poly K) by (destruct Ho as [<-|Ho]; auto; subst poly'; now apply tight_box_rev).
    destruct (Hband (face_tol K)) as (Ba & Bb); [exists K; auto|].
    assert (B' : forall x, off_band (2 * face_tol K) poly x -> off_band (2 * face_tol K) poly' x).
    { intros x [H|H]; [left; now apply (hull_either poly poly')|right]. intros H'. apply H. now apply (near_either _ poly poly'). }
    destruct (C19_cyrus_beck_exact a b poly' (face_tol K) Hcc (face_tol_pos K) (B' a Ba) (B' b Bb)) as (r & Er & Cr).
    assert (Cr' : clip_result (hull poly) a b r).
    { destruct r as [(c, d)|]; cbn [clip_result] in *.
      - destruct Cr as (Hab & s & u & A1 & A2 & A3 & A4 & A5). split; auto. exists s, u. split; auto. split; auto. split; auto. split; auto.
        intros w Hw. rewrite <- (A5 w Hw). symmetry. now apply hull_either.
      - intros x y Hx Hy Sx Sy. apply Cr; auto; now apply (hull_either poly poly'). }
    assert (HF : face_at (celltree_data t) j poly' K).
    { split; auto. exists f'. split; auto. rewrite (bt_vertices _ _ _ _ _ Hb). auto. }
    assert (HS : forall c1 c2, edge_face_hit (celltree_data t) a b j c1 c2 <-> r = Some (c1, c2)).
    { intros c1 c2. split.
      - intros (poly2 & K2 & HF2 & _ & E2). destruct (face_at_fun _ _ _ _ _ _ HF HF2); subst poly2 K2. congruence.
      - intros ->. exists poly', K. split; auto. split; auto.
        destruct ((proj2 (shares_clip _ _ _ _ Cr')) ltac:(discriminate)) as (x & y & Hxy & Sx & Sy & Px & Py).
        exists x, y. split; auto. split; auto. split; auto. split; eapply hull_in_box; eauto. }
    assert (R : forall c, In ((Z.of_nat i, j), c) rows <-> exists c1 c2, c = (Some c1, Some c2) /\ r = Some (c1, c2)).
    { intros c. rewrite H3. split.
      - intros (a' & b' & c1 & c2 & _ & En' & Hh & ->). rewrite Nat2Z.id, En in En'. inversion En'; subst a' b'.
        exists c1, c2. split; auto. now apply HS.
      - intros (c1 & c2 & -> & Hr). exists a, b, c1, c2. rewrite Nat2Z.id. split; [lia|]. split; auto. split; auto. now apply HS. }
    split.
    + intros c. rewrite R. split; intros (c1 & c2 & -> & H).
      * subst r. eauto.
      * exists c1, c2. split; auto. eapply clip_result_fun; eauto.
    + rewrite (shares_clip _ _ _ _ Cr'). split.
      * intros (c & Hin). apply R in Hin as (c1 & c2 & _ & ->). discriminate.
      * intros Hr. destruct r as [(c1, c2)|]; [|congruence]. exists (Some c1, Some c2). apply R. eauto.
Qed.

(** ** Faces with a vertex inside a straight side (hanging nodes): of the part
    shared with that side only one of its pieces is returned *)
Definition hanging : list pt := [Pt 0 0; Pt 1 0; Pt 2 0; Pt 2 2; Pt 0 2].

Local Ltac reval := repeat match goal with
  | |- context [Rlt_bool ?a ?b] => first [rewrite (Rlt_bool_true a b) by lra | rewrite (Rlt_bool_false a b) by lra]
  | |- context [Rle_bool ?a ?b] => first [rewrite (Rle_bool_true a b) by lra | rewrite (Rle_bool_false a b) by lra]
  | |- context [Req_bool ?a ?b] => first [rewrite (Req_bool_true a b) by lra | rewrite (Req_bool_false a b) by lra]
  end.
Local Ltac reval_pip :=
  unfold point_in_polygon_or_on_edge, hanging;
  change (aget [Pt 0 0; Pt 1 0; Pt 2 0; Pt 2 2; Pt 0 2] (-1)) with (Ok (Pt 0 2) : res pt); cbn [bind];
  cbn [pip_or_edge_loop]; unfold point_eqb, crosses, within_perpendicular_distance, in_bounds, to_vector, cross_product, length_squared, ndiv, nmax, nmin;
  rsimp; cbn [px py]; repeat (reval; rewrite ?Rabs_pos_eq by lra; cbn [andb orb negb bind eqb]); reflexivity.

Theorem C19_hanging_node_refuted : exists poly a b c d,
  (forall u v w, In (u, v) (poly_edges poly) -> In w poly -> 0 <= orient u v w) /\ NoDup poly
  /\ (forall x, x = a \/ x = b -> ~ near_boundary (2 * (/ 1000)) poly x)
  /\ cyrus_beck_line_polygon_clip a b poly (/ 1000) = Ok (Some (c, d))
  /\ c = Pt 0 0 /\ d = Pt 1 0
  /\ on_segment a b (Pt 2 0) /\ hull poly (Pt 2 0).
Proof.
  exists hanging, (Pt (-1) 0), (Pt 3 0), (Pt 0 0), (Pt 1 0).
  split; [|split; [|split; [|split; [|split; [|split; [|split]]]]]]; auto.
  - intros u v x Huv Hx. unfold hanging in *. cbn in Huv, Hx.
    repeat destruct Huv as [Huv|Huv]; try contradiction; inversion Huv; subst u v; clear Huv;
      repeat destruct Hx as [Hx|Hx]; try contradiction; subst x; unfold orient; cbn [px py]; lra.
  - unfold hanging. distinct.
  - intros x Hx (u & v & Huv & q & (t & Ht & ->) & Hd). unfold hanging, dist2, at_ in *. cbn in Huv.
    repeat destruct Huv as [Huv|Huv]; try contradiction; inversion Huv; subst u v; destruct Hx; subst x; cbn [px py] in Hd; nra.
  - assert (Ea : point_in_polygon_or_on_edge (Pt (-1) 0) hanging (/ 1000) = Ok false) by reval_pip.
    assert (Eb : point_in_polygon_or_on_edge (Pt 3 0) hanging (/ 1000) = Ok false) by reval_pip.
    unfold cyrus_beck_line_polygon_clip. rewrite Ea, Eb. unfold to_vector, cross_product. rsimp. cbn [px py]. reval.
    cbn [bind andb]. change (aget hanging 0) with (Ok (Pt 0 0) : res pt). cbn [bind]. unfold hanging. cbn [length cb_search Z.ltb Z.compare].
    change (aget [Pt 0 0; Pt 1 0; Pt 2 0; Pt 2 2; Pt 0 2] 0) with (Ok (Pt 0 0) : res pt). cbn [bind].
    change (aget [Pt 0 0; Pt 1 0; Pt 2 0; Pt 2 2; Pt 0 2] ((0 + 1) mod zlen [Pt 0 0; Pt 1 0; Pt 2 0; Pt 2 2; Pt 0 2])) with (Ok (Pt 1 0) : res pt). cbn [bind].
    unfold to_vector, cross_product. rsimp. cbn [px py]. reval. cbn [xorb andb bind].
    assert (Hab : Pt (-1) 0 <> Pt 3 0) by (intros H; inversion H; lra).
    replace (Pt 0 0) with (at_ (Pt (-1) 0) (Pt 3 0) (/ 4)) by (unfold at_; cbn [px py]; f_equal; lra).
    replace (Pt 1 0) with (at_ (Pt (-1) 0) (Pt 3 0) (/ 2)) by (unfold at_; cbn [px py]; f_equal; lra).
    rewrite collinear_ok by auto. unfold clipI. rewrite (Rmin_left (/ 4)), (Rmax_right (/ 4)) by lra.
    rewrite Rmax_right, Rmin_right by lra. reval. reflexivity.
  - exists (3 / 4). split; [lra|]. unfold at_. cbn [px py]. f_equal; lra.
  - apply hull_vertex. unfold hanging. cbn. auto.
Qed.

(** ** Concrete cases *)
Example C19_example :
  let P := [Pt 0 0; Pt 4 0; Pt 5 3; Pt 2 5; Pt (-1) 3] in
  exists r, cyrus_beck_line_polygon_clip (Pt (-2) (-2)) (Pt 2 2) P (/ 1000) = Ok r
    /\ r = Some (Pt 0 0, Pt 2 2).
Proof.
  cbv zeta. set (P := [Pt 0 0; Pt 4 0; Pt 5 3; Pt 2 5; Pt (-1) 3]).
  assert (HC : convex_ccw P) by (unfold P; convex_check).
  assert (HI : forall t, 0 <= t <= 1 -> hull P (at_ (Pt (-2) (-2)) (Pt 2 2) t) <-> / 2 <= t).
  { intros t Ht. rewrite <- in_poly_hull by auto. split.
    - intros H. specialize (H (Pt (-1) 3) (Pt 0 0)). unfold P, orient, at_ in H. cbn in H. specialize (H ltac:(auto)). lra.
    - intros H u v Huv. unfold P in Huv. cbn in Huv.
      repeat destruct Huv as [Huv|Huv]; try contradiction; inversion Huv; subst u v; unfold orient, at_; cbn [px py]; lra. }
  destruct (C19_cyrus_beck_exact (Pt (-2) (-2)) (Pt 2 2) P (/ 1000) HC ltac:(lra)) as (r & E & C).
  - right. intros (u & v & Huv & q & (t & Ht & ->) & Hd). unfold P, dist2, at_ in *. cbn in Huv.
    repeat destruct Huv as [Huv|Huv]; try contradiction; inversion Huv; subst u v; cbn [px py] in Hd; nra.
  - left. rewrite <- (at_1 (Pt (-2) (-2)) (Pt 2 2)). apply HI; lra.
  - exists r. split; auto. eapply clip_result_fun; [exact C|]. split; [intros H; inversion H; lra|].
    exists (/ 2), 1. split; [lra|]. split; [lra|]. split; [apply pt_eq; cbn; lra|]. split; [now rewrite at_1|].
    intros u Hu. rewrite HI by auto. lra.
Qed.

Example C19_query_example : exists t rows, CellTree2d_init (T:=R) g0 grid grid_faces (-1) 4 2 = Ok t
  /\ CellTree2d_intersect_edges g0 4 1 t [(Pt (-1) (1/2), Pt (1/2) (1/2))] = Ok rows
  /\ In ((0%Z, 0%Z), (Some (Pt 0 (1/2)), Some (Pt (1/2) (1/2)))) rows.
Proof.
  destruct C04_example as (t & E). exists t.
  set (a := Pt (-1) (1/2)). set (b := Pt (1/2) (1/2)). set (P := [ptZ (0, 0); ptZ (1, 0); ptZ (1, 1); ptZ (0, 1)]%Z : list pt).
  destruct (C19_intersect_edges_geometric _ _ _ _ _ _ _ grid_mesh_R grid_convex E [(a, b)]) as (rows & H1 & _ & _ & H).
  exists rows. split; auto. split; [apply H1; lia|].
  assert (F0 : face_poly grid grid_faces (-1) 0 P).
  { exists [0; 1; 5; 4]%Z. split; [lia|]. split; [reflexivity|]. unfold poly_of. cbn. repeat constructor; auto; lia. }
  assert (HC : convex_ccw P) by (unfold P; convex_check).
  assert (HI : forall u, 0 <= u <= 1 -> hull P (at_ a b u) <-> 2/3 <= u).
  { intros u Hu. rewrite <- in_poly_hull by auto. split.
    - intros Hp. specialize (Hp (ptZ (0, 1)%Z) (ptZ (0, 0)%Z)). unfold P, a, b, orient, at_ in Hp. cbn in Hp. specialize (Hp ltac:(auto)). lra.
    - intros Hp v w Huv. unfold P in Huv. cbn in Huv.
      repeat destruct Huv as [Huv|Huv]; try contradiction; inversion Huv; subst v w; unfold orient, at_, a, b; cbn; lra. }
  destruct (H 0%nat 0%Z a b P eq_refl F0) as (HR & _).
  - intros tol (K & HT & ->).
    assert (Htol : 0 < face_tol K <= / 1000000000000).
    { split; [apply face_tol_pos|]. destruct HT as (_ & X0 & X1 & Y0 & Y1). unfold P in *. cbn in *.
      apply Exists_exists in X0 as (x0 & I0 & X0), X1 as (x1 & I1 & X1), Y0 as (y0 & J0 & Y0), Y1 as (y1 & J1 & Y1).
      assert (B : forall x, In x P -> 0 <= px x <= 1 /\ 0 <= py x <= 1).
      { intros x Hx. unfold P in Hx. cbn in Hx. repeat destruct Hx as [<-|Hx]; try contradiction; cbn; lra. }
      pose proof (B x0 I0). pose proof (B x1 I1). pose proof (B y0 J0). pose proof (B y1 J1).
      unfold face_tol. apply Rmax_lub; [lra|].
      assert (Rmax (xmax K - xmin K) (ymax K - ymin K) <= 1) by (apply Rmax_lub; lra). lra. }
    split.
    + right. intros (u & v & Huv & q & (s & Hs & ->) & Hd). unfold P, dist2, at_, a in *. cbn in Huv.
      assert (Hb : 2 * face_tol K * (2 * face_tol K) <= 1 / 4) by nra.
      repeat destruct Huv as [Huv|Huv]; try contradiction; inversion Huv; subst u v; cbn in Hd; nra.
    + left. rewrite <- (at_1 a b). apply HI; lra.
  - apply HR. exists (Pt 0 (1/2)), (Pt (1/2) (1/2)). split; auto. split; [intros Hx; inversion Hx; lra|].
    exists (2/3), 1. split; [lra|]. split; [lra|]. split; [apply pt_eq; unfold a, b; cbn; lra|]. split; [now rewrite at_1|].
    intros u Hu. rewrite HI by auto. lra.
Qed.

Print Assumptions C19_cyrus_beck_exact.
Print Assumptions C19_points_on_segment.
Print Assumptions C19_intersect_edges_geometric.
Print Assumptions C19_hanging_node_refuted.
