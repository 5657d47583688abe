(** Property theorems over exact reals: point queries on convex meshes (C10),
    on networks (C14), face normalisation (C28), boxes of faces (C39). *)
From Verif Require Import RBase MGeometry MAlgorithms MQuery MCelltree SpecTree SpecQuery SpecApi PMesh PInit PBuild PQuery PPoints PTreeFacts PApi
  NumSub SpecPoly SpecMesh GTriangle GConvex GHull GRay GCcw GBuild GFaces PropSmall Examples PropEdges.
Open Scope R_scope.

(** ** C28: faces are stored counter-clockwise *)
Theorem C28_stored_counter_clockwise g vs faces fill nb cpl (t : tree2d (T:=R)) :
  mesh_ok vs faces fill -> CellTree2d_init g vs faces fill nb cpl = Ok t ->
  Forall2 (fun f f' => same_face f f' /\ forall poly, poly_of vs f poly -> convex poly ->
             exists poly', poly_of vs f' poly' /\ convex_ccw poly')
          (map (with_fill fill) faces) (elements (celltree_data t)).
Proof.
  intros Hm E. pose proof (init_ccw _ _ _ _ _ _ _ Hm E) as Hc.
  pose proof (counter_clockwise_convex vs _ _ (mo_faces _ _ _ Hm) Hc) as HF.
  eapply Forall2_impl'; [|exact HF]. intros f f' (Hs & H). split; auto.
  intros poly Hp Hv. destruct (H poly Hp Hv) as (poly' & A & B & _). eauto.
Qed.

(** normalising twice changes nothing; a counter-clockwise face is kept, a
    clockwise one reversed *)
Theorem C28_normalisation vs f poly : wf_face (length vs) f -> poly_of vs f poly -> convex poly ->
  exists f', ccw_face vs f = Ok f' /\ ccw_face vs f' = Ok f'
    /\ (convex_ccw poly -> f' = f)
    /\ (convex_ccw (rev poly) -> until_fill f' = rev (until_fill f)).
Proof.
  intros Hw Hp Hc. destruct (ccw_face_convex vs f poly Hw Hp Hc) as (f' & poly' & E & Hw' & Hs & Hp' & Hc' & _).
  exists f'. split; auto. split; [eapply ccw_face_keep; eauto|]. split.
  - intros H. rewrite (ccw_face_keep vs f poly Hw Hp H) in E. apply Ok_inj in E. auto.
  - intros H. rewrite (ccw_face_flip vs f poly Hw Hp H) in E. apply Ok_inj in E. subst f'.
    now destruct (wf_face_rev _ f Hw) as (_ & ->).
Qed.

(** ** Stored polygons *)
Lemma stored_poly g vs faces fill nb cpl (t : tree2d (T:=R)) j poly :
  mesh_ok vs faces fill -> convex_mesh vs faces fill -> CellTree2d_init g vs faces fill nb cpl = Ok t ->
  face_poly vs faces fill j poly ->
  exists f' poly' b, (0 <= j)%Z /\ nth_error (elements (celltree_data t)) (Z.to_nat j) = Some f'
    /\ nth_error (bb_coords (celltree_data t)) (Z.to_nat j) = Some b
    /\ poly_of vs f' poly' /\ convex_ccw poly' /\ (poly' = poly \/ poly' = rev poly)
    /\ tight_box poly' b.
Proof.
  intros Hm Hc E Hj. pose proof (Hc _ _ Hj) as Hcv. destruct Hj as (f & H0 & En & Hp).
  pose proof (init_ccw _ _ _ _ _ _ _ Hm E) as Hcc.
  pose proof (counter_clockwise_convex vs _ _ (mo_faces _ _ _ Hm) Hcc) as HF.
  destruct (Forall2_nth_l _ _ _ _ _ HF En) as (f' & En' & _ & H).
  destruct (H poly Hp Hcv) as (poly' & Hp' & Hc' & Ho).
  pose proof (init_built _ _ _ _ _ _ _ Hm E) as Hb.
  destruct (Forall2_nth_l _ _ _ _ _ (mt_boxes _ (bt_mesh _ _ _ _ _ Hb)) En') as (b & Eb & poly2 & Hp2 & Ht).
  rewrite (bt_vertices _ _ _ _ _ Hb) in Hp2. assert (poly2 = poly') by (eapply poly_of_unique; eauto). subst poly2.
  exists f', poly', b. repeat split; auto; apply Hc' || apply Ht.
Qed.

Lemma stored_back g vs faces fill nb cpl (t : tree2d (T:=R)) j f' :
  mesh_ok vs faces fill -> CellTree2d_init g vs faces fill nb cpl = Ok t ->
  (0 <= j)%Z -> nth_error (elements (celltree_data t)) (Z.to_nat j) = Some f' ->
  exists poly, face_poly vs faces fill j poly.
Proof.
  intros Hm E H0 En. pose proof (init_built _ _ _ _ _ _ _ Hm E) as Hb.
  pose proof (F2_length _ _ _ (bt_elements _ _ _ _ _ Hb)) as Hl.
  assert (Hlt : (Z.to_nat j < length (elements (celltree_data t)))%nat) by (apply nth_error_Some; congruence).
  destruct (nth_error (map (with_fill fill) faces) (Z.to_nat j)) as [f|] eqn:Ef;
    [|apply nth_error_None in Ef; lia].
  pose proof (mo_faces _ _ _ Hm) as Hw. rewrite Forall_forall in Hw.
  destruct (wf_poly vs f (Hw f (nth_error_In _ _ Ef))) as (poly & Hp).
  exists poly, f. auto.
Qed.

(** ** C39: all points of a convex face are in its box *)
Theorem C39_face_in_box g vs faces fill nb cpl (t : tree2d (T:=R)) :
  mesh_ok vs faces fill -> convex_mesh vs faces fill -> CellTree2d_init g vs faces fill nb cpl = Ok t ->
  forall j poly p, face_poly vs faces fill j poly -> hull poly p -> in_box_of t p j.
Proof.
  intros Hm Hc E j poly p Hj Hp.
  destruct (stored_poly _ _ _ _ _ _ _ _ _ Hm Hc E Hj) as (f' & poly' & b & H0 & _ & Eb & _ & _ & Ho & Ht).
  exists b. split; auto. split; auto. eapply tight_box_hull; eauto. now apply (hull_either poly poly').
Qed.

(** ** C10: locate_points finds the geometric answer *)
Theorem C10_locate_points_geometric g vs faces fill nb cpl (t : tree2d (T:=R)) :
  mesh_ok vs faces fill -> convex_mesh vs faces fill -> CellTree2d_init g vs faces fill nb cpl = Ok t ->
  forall g' points tolerance, exists tol js,
    get_tolerance t tolerance = Ok tol
    /\ CellTree2d_locate_points g' t points tolerance = Ok js
    /\ length js = length points
    /\ forall k p j, nth_error points k = Some p -> nth_error js k = Some j -> 0 <= tol ->
         (* the assigned face contains the point or nearly touches it *)
         (j <> (-1)%Z -> exists poly, face_poly vs faces fill j poly /\ (hull poly p \/ near_boundary (2 * tol) poly p))
         (* a point in the interior of a face is assigned a face *)
         /\ (forall j' poly, face_poly vs faces fill j' poly -> open_hull poly p -> j <> (-1)%Z)
         (* so is a point of the boundary, if the tolerance is positive *)
         /\ (0 < tol -> forall j' poly, face_poly vs faces fill j' poly -> hull poly p -> j <> (-1)%Z)
         (* the only candidate is assigned *)
         /\ (forall j', (exists poly, face_poly vs faces fill j' poly /\ open_hull poly p) ->
               (forall j'' poly, face_poly vs faces fill j'' poly ->
                  hull poly p \/ near_boundary (2 * tol) poly p -> j'' = j') -> j = j').
Proof.
  intros Hm Hc E g' points tolerance. pose proof (init_built _ _ _ _ _ _ _ Hm E) as Hb.
  destruct (points_result _ _ _ _ t tolerance Hb) as (tol & Et & H). destruct (H points) as (js & Hj & HF).
  exists tol, js. split; auto. split; auto. split; [symmetry; eapply F2_length; eauto|].
  intros k p j Ep Ej Htol. pose proof (Forall2_nth _ _ _ _ _ _ HF Ep Ej) as A.
  assert (S : (j <> -1)%Z -> exists poly, face_poly vs faces fill j poly /\ (hull poly p \/ near_boundary (2 * tol) poly p)).
  { intros Hj1. destruct A as [(f' & poly' & H0 & En & Hp' & Hpass)|(-> & _)]; [|congruence].
    destruct (stored_back _ _ _ _ _ _ _ _ _ Hm E H0 En) as (poly & Hpoly).
    destruct (stored_poly _ _ _ _ _ _ _ _ _ Hm Hc E Hpoly) as (f2 & poly2 & b & _ & En2 & _ & Hp2 & Hcc & Ho & _).
    rewrite En in En2. inversion En2; subst f2.
    rewrite (bt_vertices _ _ _ _ _ Hb) in Hp'. assert (poly2 = poly') by (eapply poly_of_unique; eauto). subst poly2.
    exists poly. split; auto. destruct (pip_edge_sound poly' Hcc p tol Htol Hpass) as [Hi|Hn].
    - left. apply (hull_either poly poly'); auto. now apply in_poly_hull.
    - right. apply (near_either _ poly poly'); auto. }
  assert (C : forall j' poly, face_poly vs faces fill j' poly -> hull poly p ->
              (forall poly', convex_ccw poly' -> (poly' = poly \/ poly' = rev poly) ->
                 point_in_polygon_or_on_edge p poly' tol = Ok true) -> j <> (-1)%Z).
  { intros j' poly Hpoly Hh Hpip ->. destruct A as [(f' & poly' & H0 & _)|(_ & Hn)]; [lia|].
    destruct (stored_poly _ _ _ _ _ _ _ _ _ Hm Hc E Hpoly) as (f2 & poly2 & b & H0 & En2 & _ & Hp2 & Hcc & Ho & _).
    apply (Hn j').
    - exists f2, poly2. split; auto. split; auto. rewrite (bt_vertices _ _ _ _ _ Hb). split; auto.
    - eapply C39_face_in_box; eauto. }
  assert (I : forall j' poly, face_poly vs faces fill j' poly -> open_hull poly p -> j <> (-1)%Z).
  { intros j' poly Hpoly Hh. apply (C j' poly Hpoly); [now apply open_hull_hull|].
    intros poly' Hcc Ho. apply pip_edge_interior; auto. apply interior_open_hull; auto.
    now apply (open_hull_either poly poly'). }
  split; [exact S|]. split; [exact I|]. split.
  - intros Ht j' poly Hpoly Hh. apply (C j' poly Hpoly Hh).
    intros poly' Hcc Ho. apply pip_edge_complete; auto. apply in_poly_hull; auto.
    now apply (hull_either poly poly').
  - intros j' (poly & Hpoly & Hh) Hu. destruct (S (I j' poly Hpoly Hh)) as (poly2 & Hp2 & Hn). eauto.
Qed.

(** with the default tolerance, which is positive, no point of a face is lost *)
Theorem C10_default_tolerance g vs faces fill nb cpl (t : tree2d (T:=R)) :
  mesh_ok vs faces fill -> convex_mesh vs faces fill -> CellTree2d_init g vs faces fill nb cpl = Ok t ->
  forall g' points, exists js, CellTree2d_locate_points g' t points None = Ok js
    /\ forall k p j j' poly, nth_error points k = Some p -> nth_error js k = Some j ->
         face_poly vs faces fill j' poly -> hull poly p -> j <> (-1)%Z.
Proof.
  intros Hm Hc E g' points.
  destruct (C10_locate_points_geometric _ _ _ _ _ _ _ Hm Hc E g' points None) as (tol & js & Et & Hj & _ & H).
  exists js. split; auto. intros k p j j' poly Ep Ej Hpoly Hh.
  destruct (C43_default_tolerance_constructed _ _ _ _ _ _ _ Hm E) as (tol' & Et' & Hpos & _).
  rewrite Et in Et'. apply Ok_inj in Et'. subst tol'.
  assert (H0 : 0 < / 10 ^ 15) by (apply Rinv_0_lt_compat, pow_lt; lra).
  assert (Ht0 : 0 <= tol) by lra.
  destruct (H k p j Ep Ej Ht0) as (_ & _ & H3 & _). apply (H3 ltac:(lra) j' poly); auto.
Qed.

(** ** C14: points on a network, exact part *)
Theorem C14_edge_points_geometric g vs edges nb cpl (t : tree2d (T:=R)) :
  network_ok vs edges -> EdgeCellTree2d_init g vs edges nb cpl = Ok t ->
  forall g' points tolerance, exists tol js,
    get_tolerance t tolerance = Ok tol
    /\ EdgeCellTree2d_locate_points g' t points tolerance = Ok js
    /\ length js = length points
    /\ forall k p j, nth_error points k = Some p -> nth_error js k = Some j ->
         (0 <= tol -> j <> (-1)%Z -> exists v0 v1, edge_ends vs edges j v0 v1 /\ v0 <> v1 /\ near_segment (2 * tol) v0 v1 p)
         /\ (0 < tol -> forall j' v0 v1, edge_ends vs edges j' v0 v1 -> v0 <> v1 -> on_segment v0 v1 p -> j <> (-1)%Z).
Proof.
  intros Hm E g' points tolerance. pose proof (init_built_edges _ _ _ _ _ _ Hm E) as Hb.
  destruct (edge_points_result _ _ _ t tolerance Hb) as (tol & Et & H). destruct (H points) as (js & Hj & HF).
  exists tol, js. split; auto. split; auto. split; [symmetry; eapply F2_length; eauto|].
  intros k p j Ep Ej. pose proof (Forall2_nth _ _ _ _ _ _ HF Ep Ej) as A.
  assert (P : forall v0 v1, point_on_edge p [v0; v1] tol = Ok (nearb p tol (v0, v1))).
  { intros v0 v1. unfold point_on_edge, nearb. cbn [fst snd]. change (aget [v0; v1] 0%Z) with (Ok v0).
    change (aget [v0; v1] 1%Z) with (Ok v1). cbn [bind]. destruct (point_eqb v1 v0); reflexivity. }
  split.
  - intros Htol Hj1. destruct A as [(e & v0 & v1 & H0 & En & He & Hpass)|(-> & _)]; [|congruence].
    rewrite (be_vertices _ _ _ _ Hb) in He. rewrite (be_elements _ _ _ _ Hb) in En.
    exists v0, v1. split; [exists e; auto|]. rewrite P in Hpass. apply Ok_inj in Hpass. split.
    + intros ->. unfold nearb in Hpass. cbn [fst snd] in Hpass.
      replace (point_eqb v1 v1) with true in Hpass by (symmetry; now apply point_eqb_iff). discriminate.
    + now apply nearb_near.
  - intros Htol j' v0 v1 (e & H0 & En & He) Hne Hon ->.
    destruct A as [(e' & w0 & w1 & H1 & _)|(_ & Hn)]; [lia|].
    apply (Hn j').
    + exists e, v0, v1. split; auto. rewrite (be_elements _ _ _ _ Hb), (be_vertices _ _ _ _ Hb).
      split; auto. split; auto. rewrite P. f_equal. now apply nearb_on.
    + destruct (be_net _ _ _ _ Hb) as (gt & Hgt & Hnet).
      rewrite <- (be_elements _ _ _ _ Hb) in En.
      destruct (Forall2_nth_l _ _ _ _ _ (nt_boxes _ _ Hnet) En) as (b & Eb & w0 & w1 & He' & Hwb).
      rewrite (be_vertices _ _ _ _ Hb) in He'.
      assert (w0 = v0 /\ w1 = v1) as (-> & ->).
      { destruct He as (i & i' & -> & _ & _ & A1 & A2). destruct He' as (k1 & k2 & Ek & _ & _ & B1 & B2).
        inversion Ek; subst. split; congruence. }
      exists b. split; auto. split; auto.
      assert (Hg : 0 <= gt).
      { destruct Hgt as (x0 & x1 & y0 & y1 & _ & _ & _ & _ & _ & ->). unfold nmax. rsimp.
        assert (0 <= (nmintol : R)) by (rsimp; lra). rsimp. repeat rcase; lra. }
      destruct Hwb as ((_ & X1 & X2) & (_ & X3 & X4) & (_ & Y1 & Y2) & (_ & Y3 & Y4)). rsimp. rb.
      destruct Hon as (s & Hs & ->).
      split; [|split; [|split]]; apply Rle_bool_true; unfold at_; cbn [px py].
      * apply comb_ge; lra.
      * apply comb_le; lra.
      * apply comb_ge; lra.
      * apply comb_le; lra.
Qed.

(** ** Concrete cases *)

(** decide strict convexity of a concrete polygon *)
Ltac distinct := repeat (apply NoDup_cons; [cbn; intros HI; repeat destruct HI as [HI|HI]; try contradiction;
                                             inversion HI; lra|]); apply NoDup_nil.
Ltac convex_check :=
  split; [cbn; lia|split; [distinct|]];
  let u := fresh "u" in let v := fresh "v" in let w := fresh "w" in let He := fresh "He" in
  let Hw := fresh "Hw" in let N1 := fresh "N" in let N2 := fresh "N" in
  intros u v w He Hw N1 N2; cbn in He, Hw;
  repeat destruct He as [He|He]; try contradiction; inversion He; subst u v; clear He;
  repeat destruct Hw as [Hw|Hw]; try contradiction; subst w; unfold orient; cbn; try lra;
  first [destruct N1; reflexivity | destruct N2; reflexivity].

Lemma grid_convex : convex_mesh (@grid R _) grid_faces (-1).
Proof.
  intros j poly (f & _ & En & Hp). apply nth_error_In in En. unfold grid_faces in En. cbn in En.
  repeat destruct En as [En|En]; try contradiction; subst f; unfold poly_of in Hp; cbn in Hp; invert_poly;
    first [left; convex_check | right; cbn [rev app]; convex_check].
Qed.

(** the centre of a square; the middle of a side shared by two faces *)
Example C10_example : exists t js, CellTree2d_init (T:=R) g0 grid grid_faces (-1) 4 2 = Ok t
  /\ CellTree2d_locate_points g0 t [Pt (1/2) (1/2); Pt 1 (1/2)] None = Ok js
  /\ Forall (fun j => j <> (-1)%Z) js.
Proof.
  destruct C04_example as (t & E). exists t.
  destruct (C10_default_tolerance _ _ _ _ _ _ _ grid_mesh_R grid_convex E g0 [Pt (1/2) (1/2); Pt 1 (1/2)])
    as (js & Hj & H). exists js. split; auto. split; auto.
  assert (F0 : face_poly grid grid_faces (-1) 0 [ptZ (0, 0); ptZ (1, 0); ptZ (1, 1); ptZ (0, 1)]%Z).
  { exists [0; 1; 5; 4]%Z. split; [lia|]. split; [reflexivity|]. unfold poly_of. cbn. repeat constructor; auto; lia. }
  apply Forall_forall. intros j Hin. apply In_nth_error in Hin as (k & Ek).
  assert (Hk : (k < length js)%nat) by (apply nth_error_Some; congruence).
  assert (Hl : length js = 2%nat).
  { unfold CellTree2d_locate_points in Hj. inv_bind Hj. unfold locate_points in Hk0.
    apply mapres_length in Hk0. exact Hk0. }
  destruct k as [|[|k]]; [| |lia].
  - apply (H 0%nat (Pt (1/2) (1/2)) j 0%Z _ eq_refl Ek F0).
    exists [1/4; 1/4; 1/4; 1/4]. split; [reflexivity|]. split; [repeat constructor; lra|]. split; [cbn; lra|].
    apply pt_eq; cbn; lra.
  - apply (H 1%nat (Pt 1 (1/2)) j 0%Z _ eq_refl Ek F0).
    exists [0; 1/2; 1/2; 0]. split; [reflexivity|]. split; [repeat constructor; lra|]. split; [cbn; lra|].
    apply pt_eq; cbn; lra.
Qed.

(** both orientations occur in the example mesh *)
Example C28_example : ccw_face (@grid R _) [2; 6; 7; 3]%Z = Ok [3; 7; 6; 2]%Z
  /\ ccw_face (@grid R _) [0; 1; 5; 4]%Z = Ok [0; 1; 5; 4]%Z
  /\ ccw_face (@grid R _) [6; 10; 11; -1]%Z = Ok [11; 10; 6; -1]%Z.
Proof.
  split; [|split].
  - change [3; 7; 6; 2]%Z with (rev (until_fill [2; 6; 7; 3]%Z) ++ skipn (length (until_fill [2; 6; 7; 3]%Z)) [2; 6; 7; 3]%Z).
    apply (ccw_face_flip _ _ [ptZ (2, 0); ptZ (2, 1); ptZ (3, 1); ptZ (3, 0)]%Z).
    + repeat split; cbn; try lia; repeat constructor; lia.
    + unfold poly_of; cbn; repeat constructor; auto; lia.
    + cbn [rev app]. convex_check.
  - apply (ccw_face_keep _ _ [ptZ (0, 0); ptZ (1, 0); ptZ (1, 1); ptZ (0, 1)]%Z).
    + repeat split; cbn; try lia; repeat constructor; lia.
    + unfold poly_of; cbn; repeat constructor; auto; lia.
    + convex_check.
  - change [11; 10; 6; -1]%Z with (rev (until_fill [6; 10; 11; -1]%Z) ++ skipn (length (until_fill [6; 10; 11; -1]%Z)) [6; 10; 11; -1]%Z).
    apply (ccw_face_flip _ _ [ptZ (2, 1); ptZ (2, 2); ptZ (3, 2)]%Z).
    + repeat split; cbn; try lia; repeat constructor; lia.
    + unfold poly_of; cbn; repeat constructor; auto; lia.
    + cbn [rev app]. convex_check.
Qed.

Example C39_example : exists t, CellTree2d_init (T:=R) g0 grid grid_faces (-1) 4 2 = Ok t
  /\ in_box_of t (Pt (5/2) (3/4)) 2.
Proof.
  destruct C04_example as (t & E). exists t. split; auto.
  apply (C39_face_in_box _ _ _ _ _ _ _ grid_mesh_R grid_convex E 2 [ptZ (2, 0); ptZ (2, 1); ptZ (3, 1); ptZ (3, 0)]%Z).
  - exists [2; 6; 7; 3]%Z. split; [lia|]. split; [reflexivity|]. unfold poly_of. cbn. repeat constructor; auto; lia.
  - exists [1/8; 3/8; 3/8; 1/8]. split; [reflexivity|]. split; [repeat constructor; lra|]. split; [cbn; lra|].
    apply pt_eq; cbn; lra.
Qed.

(** the middle of a pipe is found *)
Example C14_example : exists t js, EdgeCellTree2d_init (T:=R) g0 grid pipes 4 2 = Ok t
  /\ EdgeCellTree2d_locate_points g0 t [Pt (1/2) 0] (Some (1/100)) = Ok [js] /\ js <> (-1)%Z.
Proof.
  destruct C04_network_example as (t & E). exists t.
  destruct (C14_edge_points_geometric _ _ _ _ _ _ pipes_network_R E g0 [Pt (1/2) 0] (Some (1/100)))
    as (tol & js & Et & Hj & Hl & H). destruct js as [|j [|]]; try discriminate. exists j. split; auto. split; auto.
  cbn in Et. apply Ok_inj in Et. subst tol.
  destruct (H 0%nat _ j eq_refl eq_refl) as (_ & H2).
  apply (H2 ltac:(lra) 0%Z (ptZ (0, 0)%Z) (ptZ (1, 0)%Z)).
  - exists [0; 1]%Z. split; [lia|]. split; [reflexivity|]. exists 0%Z, 1%Z. repeat split; auto; lia.
  - intros Hx. inversion Hx. lra.
  - exists (1/2). split; [lra|]. apply pt_eq; cbn; lra.
Qed.

Print Assumptions C28_stored_counter_clockwise.
Print Assumptions C28_normalisation.
Print Assumptions C39_face_in_box.
Print Assumptions C10_locate_points_geometric.
Print Assumptions C10_default_tolerance.
Print Assumptions C14_edge_points_geometric.
