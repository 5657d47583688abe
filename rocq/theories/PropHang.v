(** Property theorems over exact reals: meshes whose faces have hanging nodes,
    i.e. vertices inside the sides of a strictly convex outline (C68). *)
From Verif Require Import RBase MUtils MGeometry MAlgorithms MQuery MCelltree SpecTree SpecQuery SpecApi PMesh PInit PBuild PQuery PPoints PTreeFacts PApi
  NumSub SpecPoly SpecArea SpecMesh SpecHang GTriangle GConvex GHull GRay GCcw GBuild GFaces GArea GClip GClipArea GTiling GHang GHangMesh
  PFaces PSmall PropSmall Examples PropEdges PropPoints PropFaces PropArea.
From Coq Require Import Permutation.
Open Scope R_scope.

Lemma orientable_face Q : orientable Q -> hanging_face Q.
Proof. intros [H|(P & HC & HR & _)]; [now left|right; now exists P]. Qed.
Lemma orientable_hanging vs faces fill : orientable_mesh vs faces fill -> hanging_mesh vs faces fill.
Proof. intros H j poly Hj. apply orientable_face. eapply H; eauto. Qed.
Lemma convex_orientable Q : convex Q -> orientable Q.
Proof.
  intros [H|H]; [left; exists Q; split; auto; apply hanging_none|].
  right. exists (rev Q). split; auto. split; [apply hanging_none|]. apply in_rev. rewrite rev_involutive.
  apply last_in. intros ->. destruct H as (L & _). cbn in L. lia.
Qed.
(** strictly convex meshes are a special case *)
Theorem C68_convex_mesh vs faces fill : convex_mesh vs faces fill -> orientable_mesh vs faces fill.
Proof. intros H j poly Hj. apply convex_orientable. eapply H; eauto. Qed.

(** ** The normalisation *)
Theorem C68_stored_counter_clockwise g vs faces fill nb cpl (t : tree2d (T:=R)) :
  mesh_ok vs faces fill -> CellTree2d_init g vs faces fill nb cpl = Ok t ->
  Forall2 (fun f f' => same_face f f' /\ forall poly, poly_of vs f poly -> orientable poly ->
             exists poly', poly_of vs f' poly' /\ hanging_ccw poly')
          (map (with_fill fill) faces) (elements (celltree_data t)).
Proof.
  intros Hm E. pose proof (init_ccw _ _ _ _ _ _ _ Hm E) as Hc.
  pose proof (counter_clockwise_hang vs _ _ (mo_faces _ _ _ Hm) Hc) as HF.
  eapply Forall2_impl'; [|exact HF]. intros f f' (Hs & _ & H). split; auto.
  intros poly Hp Hv. destruct (H poly Hp) as (poly' & A & _ & B). eauto.
Qed.

(** ** Points *)
Theorem C68_locate_points g vs faces fill nb cpl (t : tree2d (T:=R)) :
  mesh_ok vs faces fill -> hanging_mesh vs faces fill -> CellTree2d_init g vs faces fill nb cpl = Ok t ->
  forall g' points tolerance, exists tol js,
    get_tolerance t tolerance = Ok tol
    /\ CellTree2d_locate_points g' t points tolerance = Ok js
    /\ length js = length points
    /\ forall k p j, nth_error points k = Some p -> nth_error js k = Some j -> 0 <= tol ->
         (j <> (-1)%Z -> exists poly, face_poly vs faces fill j poly /\ (hull poly p \/ near_boundary (2 * tol) poly p))
         /\ (forall j' poly, face_poly vs faces fill j' poly -> open_hull poly p -> j <> (-1)%Z)
         /\ (0 < tol -> forall j' poly, face_poly vs faces fill j' poly -> hull poly p -> j <> (-1)%Z)
         /\ (forall j', (exists poly, face_poly vs faces fill j' poly /\ open_hull poly p) ->
               (forall j'' poly, face_poly vs faces fill j'' poly ->
                  hull poly p \/ near_boundary (2 * tol) poly p -> j'' = j') -> j = j').
Proof.
  intros Hm Hc E g' points tolerance. pose proof (init_built _ _ _ _ _ _ _ Hm E) as Hb.
  destruct (points_result _ _ _ _ t tolerance Hb) as (tol & Et & H). destruct (H points) as (js & Hj & HF).
  exists tol, js. split; auto. split; auto. split; [symmetry; eapply F2_length; eauto|].
  intros k p j Ep Ej Htol. pose proof (Forall2_nth _ _ _ _ _ _ HF Ep Ej) as A.
  assert (S : (j <> -1)%Z -> exists poly, face_poly vs faces fill j poly /\ (hull poly p \/ near_boundary (2 * tol) poly p)).
  { intros Hj1. destruct A as [(f' & poly' & H0 & En & Hp' & Hpass)|(-> & _)]; [|congruence].
    destruct (stored_back _ _ _ _ _ _ _ _ _ Hm E H0 En) as (poly & Hpoly).
    destruct (hang_stored _ _ _ _ _ _ _ _ _ Hm E Hpoly) as (f2 & poly2 & b & _ & En2 & _ & _ & Hp2 & Ho & _).
    rewrite En in En2. inversion En2; subst f2.
    rewrite (bt_vertices _ _ _ _ _ Hb) in Hp'. assert (poly2 = poly') by (eapply poly_of_unique; eauto). subst poly2.
    exists poly. split; auto. destruct (hanging_outline _ (Hc _ _ Hpoly)) as (P & HP).
    destruct (outline_pip_sound P poly' (outline_same _ _ _ HP Ho) p tol Htol Hpass) as [Hi|Hn].
    - left. now apply (hull_either poly poly' p Ho).
    - right. now apply (near_either _ poly poly' p Ho). }
  assert (C : forall j' poly, face_poly vs faces fill j' poly -> hull poly p ->
              (forall P poly', outline P poly' -> poly_same poly poly' ->
                 point_in_polygon_or_on_edge p poly' tol = Ok true) -> j <> (-1)%Z).
  { intros j' poly Hpoly Hh Hpip ->. destruct A as [(f' & poly' & H0 & _)|(_ & Hn)]; [lia|].
    destruct (hang_stored _ _ _ _ _ _ _ _ _ Hm E Hpoly) as (f2 & poly2 & b & H0 & En2 & Eb & _ & Hp2 & Ho & _ & Htb).
    destruct (hanging_outline _ (Hc _ _ Hpoly)) as (P & HP).
    apply (Hn j').
    - exists f2, poly2. split; auto. split; auto. rewrite (bt_vertices _ _ _ _ _ Hb). split; auto.
      apply (Hpip P); auto. eapply outline_same; eauto.
    - exists b. split; auto. split; auto. eapply tight_box_hull; eauto. now apply (hull_either poly poly2 p Ho). }
  assert (I : forall j' poly, face_poly vs faces fill j' poly -> open_hull poly p -> j <> (-1)%Z).
  { intros j' poly Hpoly Hh. apply (C j' poly Hpoly); [now apply open_hull_hull|].
    intros P poly' HP Ho. apply (outline_pip_open P poly' HP). now apply (open_hull_either poly poly' p Ho). }
  split; [exact S|]. split; [exact I|]. split.
  - intros Ht j' poly Hpoly Hh. apply (C j' poly Hpoly Hh).
    intros P poly' HP Ho. apply (outline_pip_complete P poly' HP); auto. now apply (hull_either poly poly' p Ho).
  - intros j' (poly & Hpoly & Hh) Hu. destruct (S (I j' poly Hpoly Hh)) as (poly2 & Hp2 & Hn). eauto.
Qed.

Theorem C68_default_tolerance g vs faces fill nb cpl (t : tree2d (T:=R)) :
  mesh_ok vs faces fill -> hanging_mesh vs faces fill -> CellTree2d_init g vs faces fill nb cpl = Ok t ->
  forall g' points, exists js, CellTree2d_locate_points g' t points None = Ok js
    /\ length js = length points
    /\ forall k p j j' poly, nth_error points k = Some p -> nth_error js k = Some j ->
         face_poly vs faces fill j' poly -> hull poly p -> j <> (-1)%Z.
Proof.
  intros Hm Hc E g' points.
  destruct (C68_locate_points _ _ _ _ _ _ _ Hm Hc E g' points None) as (tol & js & Et & Hj & Hl & H).
  exists js. split; auto. split; auto. intros k p j j' poly Ep Ej Hpoly Hh.
  destruct (C43_default_tolerance_constructed _ _ _ _ _ _ _ Hm E) as (tol' & Et' & Hpos & _).
  rewrite Et in Et'. apply Ok_inj in Et'. subst tol'.
  assert (H0 : 0 < / 10 ^ 15) by (apply Rinv_0_lt_compat, pow_lt; lra).
  assert (Ht0 : 0 <= tol) by lra.
  destruct (H k p j Ep Ej Ht0) as (_ & _ & H3 & _). apply (H3 ltac:(lra) j' poly); auto.
Qed.

(** ** Overlapping faces *)
Lemma outline_box P Q b p : outline P Q -> tight_box Q b -> open_hull Q p ->
  xmin b < px p < xmax b /\ ymin b < py p < ymax b.
Proof.
  intros HO Ht Hp. assert (HP : tight_box P b -> xmin b < px p < xmax b /\ ymin b < py p < ymax b).
  { intros HT. apply (interior_box P b p); auto; [apply HO|]. apply interior_open_hull; [apply HO|]. now apply (outline_open_hull P Q HO). }
  pose proof HO as (Hc & _). apply (outline_open_hull P Q HO), interior_open_hull in Hp; auto.
  destruct Ht as (HF & _). rewrite Forall_forall in HF.
  destruct (interior_beyond P p 1 0 Hc Hp) as (v1 & I1 & L1); [left; lra|].
  destruct (interior_beyond P p (-1) 0 Hc Hp) as (v2 & I2 & L2); [left; lra|].
  destruct (interior_beyond P p 0 1 Hc Hp) as (v3 & I3 & L3); [right; lra|].
  destruct (interior_beyond P p 0 (-1) Hc Hp) as (v4 & I4 & L4); [right; lra|].
  apply (outline_vertex P Q HO) in I1, I2, I3, I4.
  destruct (HF v1 I1) as (_ & A1 & _), (HF v2 I2) as (A2 & _), (HF v3 I3) as (_ & _ & _ & A3), (HF v4 I4) as (_ & _ & A4 & _).
  rsimp. rb. lra.
Qed.

Theorem C68_locate_faces g vs faces fill nb cpl (t : tree2d (T:=R)) :
  mesh_ok vs faces fill -> hanging_mesh vs faces fill -> small vs ->
  CellTree2d_init g vs faces fill nb cpl = Ok t ->
  forall vs_ qfaces, faces_ok vs_ qfaces -> hanging_mesh vs_ qfaces (-1) -> small vs_ ->
  exists pairs qfaces',
    (forall g' n_threads, (1 <= n_threads)%nat ->
       CellTree2d_locate_faces g' n_threads t vs_ qfaces = Ok (pairs, qfaces'))
    /\ NoDup pairs
    /\ forall i j, In (i, j) pairs <->
         exists a b p, face_poly vs_ qfaces (-1) i a /\ face_poly vs faces fill j b
           /\ open_hull a p /\ open_hull b p.
Proof.
  intros Hm Hc Hs E vs_ qf Hq Hcq Hsq.
  destruct (locate_faces_result _ _ _ _ _ _ _ Hm E vs_ qf Hq) as (pairs & qf' & Ecc & Hr & Hnd & Hin).
  exists pairs, qf'. split; auto. split; auto.
  pose proof (init_built _ _ _ _ _ _ _ Hm E) as Hb.
  pose proof (counter_clockwise_hang vs_ qf qf' (fo_faces _ _ Hq) Ecc) as HFq.
  intros i j. rewrite Hin. split.
  - intros (fa & fb & a & b & ba & bb & H0 & H1 & Ea & Eb & Pa & Pb & Ta & Tb & Ebb & Ho & (X1 & X2)).
    assert (Hl : (Z.to_nat i < length qf)%nat) by (rewrite (F2_length _ _ _ HFq); apply nth_error_Some; congruence).
    destruct (nth_error qf (Z.to_nat i)) as [f|] eqn:Ef; [|apply nth_error_None in Ef; lia].
    pose proof (fo_faces _ _ Hq) as Wq. rewrite Forall_forall in Wq.
    destruct (wf_poly vs_ f (Wq f (nth_error_In _ _ Ef))) as (a0 & Pf).
    destruct (Forall2_nth _ _ _ _ _ _ HFq Ef Ea) as (_ & _ & Hcv).
    assert (FA : face_poly vs_ qf (-1) i a0) by (exists f; rewrite with_fill_id; auto).
    destruct (Hcv a0 Pf) as (a' & Pa' & Oa & _).
    assert (a' = a) by (eapply poly_of_unique; eauto). subst a'.
    destruct (stored_back _ _ _ _ _ _ _ _ _ Hm E H1 Eb) as (b0 & FB).
    destruct (hang_stored _ _ _ _ _ _ _ _ _ Hm E FB) as (fb2 & b' & b2 & _ & Eb2 & _ & _ & Pb2 & Ob & _).
    rewrite Eb in Eb2. inversion Eb2; subst fb2.
    assert (b' = b) by (eapply poly_of_unique; eauto). subst b'.
    destruct (hanging_outline _ (Hcq _ _ FA)) as (PA & OA). destruct (hanging_outline _ (Hc _ _ FB)) as (PB & OB).
    destruct (outline_axes PA a PB b (outline_same _ _ _ OA Oa) (outline_same _ _ _ OB Ob)
      (small_poly _ _ _ Hsq Pa) (small_poly _ _ _ Hs Pb)) as (r1 & r2 & E1 & E2 & H).
    rewrite X1 in E1. rewrite X2 in E2. apply Ok_inj in E1, E2. subst r1 r2.
    destruct (proj1 H eq_refl) as (p & A & B).
    exists a0, b0, p. split; auto. split; auto. split; [now apply (open_hull_either a0 a p Oa)|now apply (open_hull_either b0 b p Ob)].
  - intros (a0 & b0 & p & FA & FB & A & B).
    destruct (hanging_outline _ (Hcq _ _ FA)) as (PA & OA). destruct (hanging_outline _ (Hc _ _ FB)) as (PB & OB).
    pose proof FA as (f & H0 & Ef & Pf). rewrite with_fill_id in Ef.
    destruct (Forall2_nth_l _ _ _ _ _ HFq Ef) as (fa & Ea & _ & _ & Hcv).
    destruct (Hcv a0 Pf) as (a & Pa & Oa & _).
    destruct (hang_stored _ _ _ _ _ _ _ _ _ Hm E FB) as (fb & b & bb & H1 & Eb & Ebb & _ & Pb & Ob & _ & Tb).
    assert (A' : open_hull a p) by now apply (open_hull_either a0 a p Oa).
    assert (B' : open_hull b p) by now apply (open_hull_either b0 b p Ob).
    pose proof (outline_same _ _ _ OA Oa) as OA'. pose proof (outline_same _ _ _ OB Ob) as OB'.
    assert (Wa : Forall (wf_face (length vs_)) qf').
    { destruct (counter_clockwise_ok vs_ qf (fo_faces _ _ Hq)) as (q2 & E2 & W2 & _).
      rewrite Ecc in E2. apply Ok_inj in E2. now subst. }
    destruct (build_face_bboxes_ok vs_ qf' (fo_vertices _ _ Hq) Wa) as (bbs & _ & _ & Hboxes).
    destruct (Forall2_nth_l _ _ _ _ _ Hboxes Ea) as (ba & _ & a' & Pa' & Ta).
    assert (a' = a) by (eapply poly_of_unique; eauto). subst a'.
    pose proof (outline_box PA a ba p OA' Ta A') as (Xa & Ya). pose proof (outline_box PB b bb p OB' Tb B') as (Xb & Yb).
    exists fa, fb, a, b, ba, bb. repeat (split; [assumption|]). split.
    + unfold strict_overlap. rsimp. rewrite !Rlt_bool_true by lra. auto.
    + destruct (outline_axes PA a PB b OA' OB' (small_poly _ _ _ Hsq Pa) (small_poly _ _ _ Hs Pb)) as (r1 & r2 & E1 & E2 & H).
      assert (HT : (r1 && r2)%bool = true) by (apply H; exists p; auto).
      apply andb_true_iff in HT as (-> & ->). now split.
Qed.

(** ** Areas *)
Theorem C68_clip_area g a b : hanging_ccw a -> hanging_ccw b -> (length a <= 32)%nat -> (length b <= 32)%nat ->
  exists A, polygon_polygon_clip_area g a b = Ok A /\ area_of (fun p => hull a p /\ hull b p) A.
Proof. intros. apply hanging_clip_area; auto. lia. Qed.

Lemma positive_open a b A : hanging_face a -> hanging_face b -> area_of (fun p => hull a p /\ hull b p) A ->
  (0 < A <-> exists p, open_hull a p /\ open_hull b p).
Proof.
  intros Ha Hb HA. destruct (hanging_outline _ Ha) as (PA & OA), (hanging_outline _ Hb) as (PB & OB).
  assert (HA' : area_of (fun p => hull PA p /\ hull PB p) A).
  { eapply area_of_ext; [|exact HA]. intros p. cbn beta. rewrite (outline_hull PA a OA), (outline_hull PB b OB). tauto. }
  pose proof OA as (CA & _). pose proof OB as (CB & _).
  rewrite (positive_interior PA PB A CA CB HA').
  split; intros (p & H1 & H2); exists p.
  - split; [apply (outline_open_hull PA a OA)|apply (outline_open_hull PB b OB)]; apply interior_open_hull; auto.
  - split; apply interior_open_hull; auto; [now apply (outline_open_hull PA a OA)|now apply (outline_open_hull PB b OB)].
Qed.

Theorem C68_intersect_faces g vs faces fill nb cpl (t : tree2d (T:=R)) :
  mesh_ok vs faces fill -> orientable_mesh vs faces fill -> small vs ->
  CellTree2d_init g vs faces fill nb cpl = Ok t ->
  forall vs_ qfaces qfill, faces_ok vs_ (map (with_fill qfill) qfaces) -> orientable_mesh vs_ qfaces qfill -> small vs_ ->
  exists rows,
    (forall g' n_threads, (1 <= n_threads)%nat ->
       CellTree2d_intersect_faces g' n_threads t vs_ qfaces qfill = Ok rows)
    /\ NoDup (map fst rows)
    /\ forall i j A, In ((i, j), A) rows <->
         exists a b, face_poly vs_ qfaces qfill i a /\ face_poly vs faces fill j b
           /\ area_of (fun p => hull a p /\ hull b p) A /\ 0 < A.
Proof.
  intros Hm Hc Hs E vs_ qf0 qfill Hq Hcq0 Hsq. set (qf := map (with_fill qfill) qf0) in *.
  assert (FP : forall i a, face_poly vs_ qf0 qfill i a <-> face_poly vs_ qf (-1) i a).
  { intros i a. unfold face_poly, qf. now rewrite with_fill_id. }
  assert (Hcq : orientable_mesh vs_ qf (-1)) by (intros i a Hi; apply (Hcq0 i a), FP, Hi).
  pose proof (orientable_hanging _ _ _ Hc) as Hh. pose proof (orientable_hanging _ _ _ Hcq) as Hhq.
  destruct (locate_faces_result _ _ _ _ _ _ _ Hm E vs_ qf Hq) as (pairs & qf' & Ecc & Hr & Hnd & Hin).
  destruct (C68_locate_faces _ _ _ _ _ _ _ Hm Hh Hs E vs_ qf Hq Hhq Hsq) as (pairs2 & q2 & Hr2 & _ & Hin2).
  assert (pairs2 = pairs).
  { specialize (Hr g 1%nat ltac:(lia)). rewrite (Hr2 g 1%nat ltac:(lia)) in Hr. apply Ok_inj in Hr. congruence. }
  subst pairs2. clear Hr2 q2.
  pose proof (init_built _ _ _ _ _ _ _ Hm E) as Hb. pose proof (bt_vertices _ _ _ _ _ Hb) as Evs.
  pose proof (counter_clockwise_hang vs_ qf qf' (fo_faces _ _ Hq) Ecc) as HFq.
  assert (P : forall i j, In (i, j) pairs -> exists a0 b0 A,
     face_poly vs_ qf0 qfill i a0 /\ face_poly vs faces fill j b0
     /\ (forall g', area_of_intersection_one g' vs_ vs qf' (elements (celltree_data t)) (i, j) = Ok A)
     /\ area_of (fun p => hull a0 p /\ hull b0 p) A /\ 0 < A).
  { intros i j Hij. apply Hin2 in Hij. destruct Hij as (a0 & b0 & p & FA & FB & Oa & Ob).
    pose proof FA as (f & H0 & Ef & Pf). rewrite with_fill_id in Ef.
    destruct (Forall2_nth_l _ _ _ _ _ HFq Ef) as (fa & Ea & _ & Wa & Hcv).
    destruct (Hcv a0 Pf) as (a & Pa & SA & Ca). specialize (Ca (Hcq _ _ FA)).
    destruct (hang_stored _ _ _ _ _ _ _ _ _ Hm E FB) as (fb & b & bb & H1 & Eb & _ & Wb & Pb & SB & Cb & _).
    specialize (Cb (Hc _ _ FB)).
    assert (SETS : forall p, hull a p /\ hull b p <-> hull a0 p /\ hull b0 p).
    { intros q. rewrite (hull_either a0 a q SA), (hull_either b0 b q SB). tauto. }
    assert (HOne : forall g', area_of_intersection_one g' vs_ vs qf' (elements (celltree_data t)) (i, j) = polygon_polygon_clip_area g' a b).
    { intros g'. unfold area_of_intersection_one. cbn [fst snd].
      rewrite (aget_pos _ _ _ H0 Ea), (aget_pos _ _ _ H1 Eb). cbn [bind].
      rewrite (copy_vertices_ok g' _ _ _ Wa Pa), (copy_vertices_ok g' _ _ _ Wb Pb). reflexivity. }
    destruct (C68_clip_area g a b Ca Cb (poly_len _ _ _ Wa Pa) (poly_len _ _ _ Wb Pb)) as (A & EA & HA).
    assert (HA0 : area_of (fun p => hull a0 p /\ hull b0 p) A) by now apply (area_of_ext _ _ _ SETS).
    exists a0, b0, A. split; [now apply FP|]. split; auto. split.
    - intros g'. rewrite HOne. destruct (C68_clip_area g' a b Ca Cb (poly_len _ _ _ Wa Pa) (poly_len _ _ _ Wb Pb)) as (A' & EA' & HA').
      rewrite EA'. f_equal. now apply (area_of_unique _ _ _ HA').
    - split; auto. apply (positive_open a0 b0 A); eauto. }
  set (fA := fun ij => match area_of_intersection_one g vs_ vs qf' (elements (celltree_data t)) ij with Ok A => A | Err _ => 0 end).
  exists (map (fun ij => (ij, fA ij)) (filter (fun ij => Rlt_bool 0 (fA ij)) pairs)).
  assert (EF : forall i j A, (forall g', area_of_intersection_one g' vs_ vs qf' (elements (celltree_data t)) (i, j) = Ok A) -> fA (i, j) = A).
  { intros i j A H. unfold fA. now rewrite H. }
  split; [|split].
  - intros g' n Hn. unfold CellTree2d_intersect_faces. rewrite (cast_faces_wf vs_) by apply (fo_faces _ _ Hq). cbn [bind].
    fold qf. rewrite (Hr g' n Hn). cbn [bind]. unfold area_of_intersection. rewrite Evs. rewrite (Base.mapres_ok _ fA).
    + cbn [bind]. f_equal. apply filter_sel.
    + intros (i, j) Hij. destruct (P i j Hij) as (a0 & b0 & A & _ & _ & EA & _). rewrite EA. f_equal. symmetry. now apply EF.
  - rewrite map_map. cbn [fst]. rewrite map_id. now apply NoDup_filter.
  - intros i j A. rewrite in_map_iff. split.
    + intros (ij & Eij & Hf). inversion Eij; subst; clear Eij. apply filter_In in Hf as (Hij & Hp).
      destruct (P i j Hij) as (a0 & b0 & A & FA & FB & EA & HA & Hpos). rewrite (EF _ _ _ EA).
      exists a0, b0. auto.
    + intros (a & b & FA & FB & HA & Hpos). apply FP in FA.
      assert (Hij : In (i, j) pairs).
      { apply Hin2. apply (positive_open a b A) in Hpos as (p & P1 & P2); eauto. exists a, b, p. auto. }
      destruct (P i j Hij) as (a0 & b0 & A' & FA' & FB' & EA & HA' & Hpos').
      apply FP in FA'. rewrite (face_unique _ _ _ _ _ _ FA' FA), (face_unique _ _ _ _ _ _ FB' FB) in HA'.
      assert (A' = A) by apply (area_of_unique _ _ _ HA' HA). subst A'.
      exists (i, j). rewrite (EF _ _ _ EA). split; auto. apply filter_In. split; auto. rewrite (EF _ _ _ EA). now apply Rlt_bool_true.
Qed.

Theorem C68_intersect_boxes g vs faces fill nb cpl (t : tree2d (T:=R)) :
  mesh_ok vs faces fill -> orientable_mesh vs faces fill ->
  CellTree2d_init g vs faces fill nb cpl = Ok t ->
  forall boxes, Forall proper_box boxes ->
  exists rows,
    (forall g' n_threads, (1 <= n_threads)%nat -> CellTree2d_intersect_boxes g' n_threads t boxes = Ok rows)
    /\ NoDup (map fst rows)
    /\ forall i j A, In ((i, j), A) rows <->
         exists a b, (0 <= i)%Z /\ nth_error boxes (Z.to_nat i) = Some a /\ face_poly vs faces fill j b
           /\ area_of (fun p => in_box a p /\ hull b p) A /\ 0 < A.
Proof.
  intros Hm Hc E boxes HB. rewrite Forall_forall in HB.
  pose proof (init_built _ _ _ _ _ _ _ Hm E) as Hb. pose proof (bt_vertices _ _ _ _ _ Hb) as Evs.
  destruct (boxes_result t boxes (built_valid _ _ _ _ _ Hb)) as (pairs & Hr & Hnd & Hin & _).
  assert (P : forall i j a b, (0 <= i)%Z -> nth_error boxes (Z.to_nat i) = Some a -> face_poly vs faces fill j b ->
     exists A, (forall g', box_area_one g' boxes vs (elements (celltree_data t)) (i, j) = Ok A)
       /\ area_of (fun p => in_box a p /\ hull b p) A /\ (0 < A -> In (i, j) pairs)).
  { intros i j a b0 H0 Ea FB. pose proof (HB a (nth_error_In _ _ Ea)) as Pa. pose proof (box_poly_convex a Pa) as Ca.
    destruct (hang_stored _ _ _ _ _ _ _ _ _ Hm E FB) as (fb & b & bb & H1 & Eb & Ebb & Wb & Pb & SB & Cb & Tb).
    specialize (Cb (Hc _ _ FB)).
    assert (HOne : forall g', box_area_one g' boxes vs (elements (celltree_data t)) (i, j) = polygon_polygon_clip_area g' (copy_box_vertices a) b).
    { intros g'. unfold box_area_one. cbn [fst snd]. rewrite (aget_pos _ _ _ H0 Ea), (aget_pos _ _ _ H1 Eb). cbn [bind].
      rewrite (copy_vertices_ok g' _ _ _ Wb Pb). reflexivity. }
    assert (La : (length (copy_box_vertices a) <= 32)%nat) by (cbn; lia).
    assert (Ha : hanging_ccw (copy_box_vertices a)) by (exists (copy_box_vertices a); split; auto; apply hanging_none).
    destruct (C68_clip_area g _ b Ha Cb La (poly_len _ _ _ Wb Pb)) as (A & EA & HA).
    exists A. split; [|split].
    - intros g'. rewrite HOne. destruct (C68_clip_area g' _ b Ha Cb La (poly_len _ _ _ Wb Pb)) as (A' & EA' & HA').
      rewrite EA'. f_equal. now apply (area_of_unique _ _ _ HA').
    - eapply area_of_ext; [|exact HA]. intros p. cbn beta. rewrite (box_poly_hull a p Pa), (hull_either b0 b p SB). tauto.
    - intros Hp. apply (positive_open _ b A (or_introl Ha) (or_introl Cb) HA) in Hp as (p & P1 & P2).
      apply interior_open_hull in P1; auto. apply (box_interior a p Pa) in P1.
      destruct (hanging_outline _ (or_introl Cb)) as (PB & OB). pose proof (outline_box PB b bb p OB Tb P2) as P3.
      apply Hin. exists a, bb. split; [exact H0|]. split; [exact H1|]. split; [exact Ea|]. split; [exact Ebb|].
      unfold strict_overlap. rsimp. rewrite !Rlt_bool_true by lra. auto. }
  assert (EX : forall i j, In (i, j) pairs -> (0 <= i)%Z /\ exists a b, nth_error boxes (Z.to_nat i) = Some a /\ face_poly vs faces fill j b).
  { intros i j H. apply Hin in H as (a & bb & H0 & H1 & Ea & Ebb & _). split; auto.
    pose proof (init_ccw _ _ _ _ _ _ _ Hm E) as Hcc.
    pose proof (F2_length _ _ _ (counter_clockwise_hang vs _ _ (mo_faces _ _ _ Hm) Hcc)) as L1. rewrite map_length in L1.
    pose proof (vt_elements _ (built_valid _ _ _ _ _ Hb)) as L2.
    assert (Z.to_nat j < length (bb_coords (celltree_data t)))%nat by (apply nth_error_Some; congruence).
    destruct (face_exists vs faces fill Hm (Z.to_nat j) ltac:(lia)) as (b & FB). rewrite Z2Nat.id in FB by lia. eauto. }
  set (fA := fun ij => match box_area_one g boxes vs (elements (celltree_data t)) ij with Ok A => A | Err _ => 0 end).
  assert (EF : forall i j A, (forall g', box_area_one g' boxes vs (elements (celltree_data t)) (i, j) = Ok A) -> fA (i, j) = A).
  { intros i j A H. unfold fA. now rewrite H. }
  exists (map (fun ij => (ij, fA ij)) (filter (fun ij => Rlt_bool 0 (fA ij)) pairs)). split; [|split].
  - intros g' n Hn. specialize (Hr g' n Hn). unfold CellTree2d_locate_boxes in Hr. unfold CellTree2d_intersect_boxes.
    rewrite Hr. cbn [bind]. unfold box_area_of_intersection. rewrite Evs. rewrite (Base.mapres_ok _ fA).
    + cbn [bind]. f_equal. apply filter_sel.
    + intros (i, j) Hij. destruct (EX i j Hij) as (H0 & a & b & Ea & FB). destruct (P i j a b H0 Ea FB) as (A & EA & _).
      rewrite EA. f_equal. symmetry. now apply EF.
  - rewrite map_map. cbn [fst]. rewrite map_id. now apply NoDup_filter.
  - intros i j A. rewrite in_map_iff. split.
    + intros (ij & Eij & Hf). inversion Eij; subst; clear Eij. apply filter_In in Hf as (Hij & Hp). apply Rltb_iff in Hp.
      destruct (EX i j Hij) as (H0 & a & b & Ea & FB). destruct (P i j a b H0 Ea FB) as (A & EA & HA & _).
      rewrite (EF _ _ _ EA) in *. exists a, b. auto 6.
    + intros (a & b & H0 & Ea & FB & HA & Hpos). destruct (P i j a b H0 Ea FB) as (A' & EA & HA' & HI).
      assert (A' = A) by apply (area_of_unique _ _ _ HA' HA). subst A'.
      exists (i, j). rewrite (EF _ _ _ EA). split; auto. apply filter_In. split; auto. rewrite (EF _ _ _ EA). now apply Rlt_bool_true.
Qed.

(** what a set receives from a tiling with hanging nodes is its own area *)
Lemma hang_row_sum (vs : list pt) faces fill (SA : pt -> Prop) A (RS : list (Z * R)) :
  mesh_ok vs faces fill -> hanging_mesh vs faces fill -> tiles vs faces fill SA ->
  area_of SA A -> NoDup RS ->
  (forall j B, In (j, B) RS <-> exists b, face_poly vs faces fill j b /\ area_of (fun p => SA p /\ hull b p) B /\ 0 < B) ->
  sumR (map snd RS) = A.
Proof.
  intros Hm Hc (HD & HC) HA HN HI.
  assert (EX : forall j, (j < length faces)%nat -> exists t, convex_ccw t /\ exists b, face_poly vs faces fill (Z.of_nat j) b
     /\ (forall p, hull b p <-> hull t p) /\ (forall p, open_hull b p <-> open_hull t p)).
  { intros j Hj. destruct (face_exists vs faces fill Hm j Hj) as (b & Hb). destruct (hanging_outline _ (Hc _ _ Hb)) as (P & HP).
    exists P. split; [apply HP|]. exists b. split; auto. split; intros p; [now apply outline_hull|now apply outline_open_hull]. }
  destruct (nth_choice _ _ EX) as (Ts & LT & HT).
  assert (EX2 : forall j, (j < length faces)%nat -> exists B, forall t, nth_error Ts j = Some t -> area_of (fun p => SA p /\ hull t p) B).
  { intros j Hj. destruct (nth_error Ts j) as [t|] eqn:Et; [|exists 0; discriminate].
    destruct (HT j t Et) as (Ct & _). destruct (region_area _ (region_meet SA t (area_region _ _ HA) Ct)) as (B & HB).
    exists B. intros t' Ht'. inversion Ht'; subst. exact HB. }
  destruct (nth_choice _ _ EX2) as (As & LA & HAs).
  rewrite (tiling_area SA Ts As A).
  - apply sum_rows; auto.
    + intros B HB. apply In_nth_error in HB as (j & Hj).
      assert (Hl : (j < length Ts)%nat) by (rewrite LT, <- LA; apply nth_error_Some; congruence).
      destruct (nth_error Ts j) as [t|] eqn:Et; [|apply nth_error_None in Et; lia].
      exact (area_of_nonneg _ _ (HAs j B Hj t Et)).
    + intros j B. rewrite HI. split.
      * intros (b & Hb & HB & Hpos). pose proof (face_range _ _ _ _ _ Hb) as Hr. split; [lia|]. split; auto.
        unfold zlen in Hr.
        destruct (nth_error Ts (Z.to_nat j)) as [t|] eqn:Et; [|apply nth_error_None in Et; lia].
        destruct (nth_error As (Z.to_nat j)) as [B'|] eqn:EB; [|apply nth_error_None in EB; lia].
        pose proof (HAs _ _ EB t Et) as HB'. destruct (HT _ _ Et) as (_ & b' & Hb' & Hs & _). rewrite Z2Nat.id in Hb' by lia.
        rewrite (face_unique _ _ _ _ _ _ Hb' Hb) in Hs. f_equal.
        apply (area_of_unique _ _ _ HB'). eapply area_of_ext; [|exact HB]. intros p. cbn beta. rewrite Hs. tauto.
      * intros (H0 & EB & Hpos).
        assert (Hl : (Z.to_nat j < length Ts)%nat) by (rewrite LT, <- LA; apply nth_error_Some; congruence).
        destruct (nth_error Ts (Z.to_nat j)) as [t|] eqn:Et; [|apply nth_error_None in Et; lia].
        pose proof (HAs _ _ EB t Et) as HB'. destruct (HT _ _ Et) as (_ & b' & Hb' & Hs & _). rewrite Z2Nat.id in Hb' by lia.
        exists b'. split; auto. split; auto. eapply area_of_ext; [|exact HB']. intros p. cbn beta. rewrite Hs. tauto.
  - apply Forall_forall. intros t Ht. apply In_nth_error in Ht as (j & Hj). now apply (HT j t).
  - intros j j' t t' p Hj Hj' Hne It It'.
    destruct (HT _ _ Hj) as (Ct & b & Hb & _ & Hs). destruct (HT _ _ Hj') as (Ct' & b' & Hb' & _ & Hs').
    apply (HD _ _ b b' p Hb Hb'); [lia|]. rewrite Hs, Hs'. split; now apply interior_open_hull.
  - intros p Hp. destruct (HC p Hp) as (j & b & Hb & Hbp). pose proof (face_range _ _ _ _ _ Hb) as Hr. unfold zlen in Hr.
    destruct (nth_error Ts (Z.to_nat j)) as [t|] eqn:Et; [|apply nth_error_None in Et; lia].
    exists t. split; [eapply nth_error_In; eauto|]. destruct (HT _ _ Et) as (_ & b' & Hb' & Hs & _). rewrite Z2Nat.id in Hb' by lia.
    rewrite (face_unique _ _ _ _ _ _ Hb' Hb) in Hs. now apply Hs.
  - exact HA.
  - assert (G : forall (k : list pt -> R -> Prop) Ts As, length Ts = length As -> (forall j B, nth_error As j = Some B -> forall t, nth_error Ts j = Some t -> k t B) -> Forall2 k Ts As).
    { clear. intros k. induction Ts as [|t Ts IH]; intros [|B As] L H; try discriminate; constructor.
      - apply (H O B eq_refl t eq_refl).
      - apply IH; [cbn in L; lia|]. intros j B' HB' t' Ht'. apply (H (S j) B' HB' t' Ht'). }
    apply G; [lia|exact HAs].
Qed.

Lemma outline_area Q : hanging_face Q -> area_of (hull Q) (Rabs (shoelace Q)).
Proof.
  intros H. destruct (hanging_outline _ H) as (P & HP). pose proof HP as (HC & HQ).
  assert (E : Rabs (shoelace Q) = shoelace P).
  { pose proof (shoelace_pos P HC). destruct HQ as [HQ|HQ]; destruct (hanging_sub _ _ HQ) as (n & Hn); apply sub_shoelace in Hn.
    - rewrite Hn. apply Rabs_pos_eq. lra.
    - rewrite shoelace_rev in Hn. rewrite Rabs_left; lra. }
  rewrite E. left. exists P. split; auto. split; auto. intros p. symmetry. now apply outline_hull.
Qed.

Theorem C68_conservative g vs faces fill nb cpl (t : tree2d (T:=R)) :
  mesh_ok vs faces fill -> orientable_mesh vs faces fill ->
  CellTree2d_init g vs faces fill nb cpl = Ok t ->
  (* boxes *)
  (forall boxes, Forall proper_box boxes ->
   forall g' n rows, (1 <= n)%nat -> CellTree2d_intersect_boxes g' n t boxes = Ok rows ->
   forall i a, nth_error boxes i = Some a -> tiles vs faces fill (in_box a) ->
   sumR (map snd (rows_at (Z.of_nat i) rows)) = (xmax a - xmin a) * (ymax a - ymin a))
  (* faces *)
  /\ (small vs -> forall vs_ qfaces qfill, faces_ok vs_ (map (with_fill qfill) qfaces) ->
      orientable_mesh vs_ qfaces qfill -> small vs_ ->
      forall g' n rows, (1 <= n)%nat -> CellTree2d_intersect_faces g' n t vs_ qfaces qfill = Ok rows ->
      forall i a, face_poly vs_ qfaces qfill i a -> tiles vs faces fill (hull a) ->
      sumR (map snd (rows_at i rows)) = Rabs (shoelace a)).
Proof.
  intros Hm Hc E. split.
  - intros boxes HB g' n rows Hn ER i a Ea HT.
    destruct (C68_intersect_boxes _ _ _ _ _ _ _ Hm Hc E boxes HB) as (rows' & Hr & Hnd & Hin).
    rewrite (Hr g' n Hn) in ER. apply Ok_inj in ER. subst rows'.
    assert (Pa : proper_box a) by (rewrite Forall_forall in HB; apply HB; eapply nth_error_In; eauto).
    apply (hang_row_sum vs faces fill (in_box a)); auto.
    + now apply orientable_hanging.
    + left. exists (copy_box_vertices a). split; [now apply box_poly_convex|]. split; [|symmetry; apply box_poly_area].
      intros p. now apply box_poly_hull.
    + now apply rows_at_nodup.
    + intros j B. rewrite rows_at_in, Hin. rewrite Nat2Z.id. split.
      * intros (a' & b & _ & Ea' & Fb & HB'). rewrite Ea in Ea'. inversion Ea'; subst a'. eauto.
      * intros (b & Fb & HB'). exists a, b. split; [lia|]. auto.
  - intros Hs vs_ qf qfill Hq Hcq Hsq g' n rows Hn ER i a Fa HT.
    destruct (C68_intersect_faces _ _ _ _ _ _ _ Hm Hc Hs E vs_ qf qfill Hq Hcq Hsq) as (rows' & Hr & Hnd & Hin).
    rewrite (Hr g' n Hn) in ER. apply Ok_inj in ER. subst rows'.
    apply (hang_row_sum vs faces fill (hull a)); auto.
    + now apply orientable_hanging.
    + apply outline_area. apply orientable_face. eapply Hcq; eauto.
    + now apply rows_at_nodup.
    + intros j B. rewrite rows_at_in, Hin. split.
      * intros (a' & b & Fa' & Fb & HB). rewrite (face_unique _ _ _ _ _ _ Fa' Fa) in HB. eauto.
      * intros (b & Fb & HB). eauto.
Qed.

(** ** Concrete case: a square of side 2, listed clockwise, with a hanging node
    where two unit squares meet its right side *)
Definition quad_faces : list (list Z) := [[8; 10; 6; 2; 0]; [2; 3; 7; 6; -1]; [6; 7; 11; 10; -1]]%Z.
Lemma quad_mesh : mesh_ok (T:=R) grid quad_faces (-1).
Proof. constructor; [apply (mo_vertices _ _ _ grid_mesh_R)|discriminate|]. repeat constructor; cbn; try lia. Qed.
Definition big : list pt := [ptZ (0, 2); ptZ (2, 2); ptZ (2, 1); ptZ (2, 0); ptZ (0, 0)]%Z.
Definition low : list pt := [ptZ (2, 0); ptZ (3, 0); ptZ (3, 1); ptZ (2, 1)]%Z.
Definition high : list pt := [ptZ (2, 1); ptZ (3, 1); ptZ (3, 2); ptZ (2, 2)]%Z.
Lemma quad_face j b : face_poly (@grid R _) quad_faces (-1) j b ->
  j = 0%Z /\ b = big \/ j = 1%Z /\ b = low \/ j = 2%Z /\ b = high.
Proof.
  intros H. pose proof (face_range _ _ _ _ _ H) as Hj. unfold zlen, quad_faces in Hj. cbn in Hj. destruct H as (f & _ & En & Hb).
  assert (C : (j = 0 \/ j = 1 \/ j = 2)%Z) by lia.
  repeat destruct C as [C|C]; subst j; cbn in En; inversion En; subst f; clear En; unfold poly_of in Hb; cbn in Hb; invert_poly; auto.
Qed.
Lemma quad_big : face_poly (@grid R _) quad_faces (-1) 0 big.
Proof. exists [8; 10; 6; 2; 0]%Z; (split; [lia|]); (split; [reflexivity|]); unfold poly_of; cbn; repeat constructor; auto; lia. Qed.
Lemma quad_low : face_poly (@grid R _) quad_faces (-1) 1 low.
Proof. exists [2; 3; 7; 6; -1]%Z; (split; [lia|]); (split; [reflexivity|]); unfold poly_of; cbn; repeat constructor; auto; lia. Qed.
Lemma quad_high : face_poly (@grid R _) quad_faces (-1) 2 high.
Proof. exists [6; 7; 11; 10; -1]%Z; (split; [lia|]); (split; [reflexivity|]); unfold poly_of; cbn; repeat constructor; auto; lia. Qed.

Definition big_corners : list pt := [ptZ (2, 2); ptZ (0, 2); ptZ (0, 0); ptZ (2, 0)]%Z.
Lemma big_hanging : hanging big_corners (rev big).
Proof.
  replace (rev big) with ([ptZ (0, 0); ptZ (2, 0)] ++ [ptZ (2, 1); ptZ (2, 2); ptZ (0, 2)])%Z by reflexivity.
  apply (hanging_rot _ [ptZ (2, 1); ptZ (2, 2); ptZ (0, 2)]%Z [ptZ (0, 0); ptZ (2, 0)]%Z). cbn [app].
  replace (ptZ (2, 1)%Z) with (at_ (ptZ (2, 0)%Z) (ptZ (2, 2)%Z) (1 / 2)) by (apply pt_eq; cbn; lra).
  apply hanging_node; [apply hanging_none|reflexivity|lra].
Qed.
Lemma quad_orientable : orientable_mesh (@grid R _) quad_faces (-1).
Proof.
  intros j b H. apply quad_face in H as [(_ & ->)|[(_ & ->)|(_ & ->)]].
  - right. exists big_corners. split; [unfold big_corners; convex_check|]. split; [exact big_hanging|]. cbn. auto.
  - apply convex_orientable. left. unfold low. convex_check.
  - apply convex_orientable. left. unfold high. convex_check.
Qed.
Lemma quad_not_convex : ~ convex big.
Proof.
  unfold big. intros [(_ & _ & H)|(_ & _ & H)]; cbn [rev app] in H.
  - pose proof (H (ptZ (2, 2)%Z) (ptZ (2, 1)%Z) (ptZ (2, 0)%Z)) as K. cbn in K.
    assert (0 < orient (ptZ (2, 2)%Z) (ptZ (2, 1)%Z) (ptZ (2, 0)%Z)).
    { apply K; auto 8; intros E; pose proof (f_equal py E) as F; cbn in F; lra. }
    unfold orient in *; cbn in *; lra.
  - pose proof (H (ptZ (2, 0)%Z) (ptZ (2, 1)%Z) (ptZ (2, 2)%Z)) as K. cbn in K.
    assert (0 < orient (ptZ (2, 0)%Z) (ptZ (2, 1)%Z) (ptZ (2, 2)%Z)).
    { apply K; auto 8; intros E; pose proof (f_equal py E) as F; cbn in F; lra. }
    unfold orient in *; cbn in *; lra.
Qed.
Lemma quad_tree : exists t, CellTree2d_init (T:=R) g0 grid quad_faces (-1) 4 2 = Ok t.
Proof.
  apply C04_nondegenerate_succeeds; [exact quad_mesh|lia|lia| |].
  - pose proof FMAX_big. change (IZR (4 * zlen quad_faces)) with 12. lra.
  - unfold quad_faces. cbn [map]. apply Forall_cons; [|apply Forall_cons; [|apply Forall_cons; [|apply Forall_nil]]].
    + intros poly Hp. unfold poly_of in Hp. cbn in Hp. invert_poly. split.
      * exists (ptZ (0, 2)%Z), (ptZ (2, 2)%Z). cbn. split; [tauto|]. split; [tauto|]. lra.
      * exists (ptZ (0, 0)%Z), (ptZ (0, 2)%Z). cbn. split; [tauto|]. split; [tauto|]. lra.
    + intros poly Hp. unfold poly_of in Hp. cbn in Hp. invert_poly. extent.
    + intros poly Hp. unfold poly_of in Hp. cbn in Hp. invert_poly. extent.
Qed.

Lemma big_hull p : hull big p <-> 0 <= px p <= 2 /\ 0 <= py p <= 2.
Proof.
  rewrite (outline_hull big_corners big); [|split; [unfold big_corners; convex_check|right; exact big_hanging]].
  rewrite <- in_poly_hull by (unfold big_corners; convex_check). unfold in_poly, big_corners. split.
  - intros H.
    pose proof (H (ptZ (2, 2)%Z) (ptZ (0, 2)%Z) ltac:(cbn; auto 6)) as H1. pose proof (H (ptZ (0, 2)%Z) (ptZ (0, 0)%Z) ltac:(cbn; auto 6)) as H2.
    pose proof (H (ptZ (0, 0)%Z) (ptZ (2, 0)%Z) ltac:(cbn; auto 6)) as H3. pose proof (H (ptZ (2, 0)%Z) (ptZ (2, 2)%Z) ltac:(cbn; auto 6)) as H4.
    unfold orient in *. cbn in *. lra.
  - intros (A & B) u v He. cbn in He.
    repeat destruct He as [He|He]; try contradiction; inversion He; subst; clear He; unfold orient; cbn; lra.
Qed.
Lemma low_hull p : hull low p <-> in_box (Box 2 3 0 1) p.
Proof. exact (box_poly_hull (Box 2 3 0 1) p ltac:(split; cbn; lra)). Qed.
Lemma high_hull p : hull high p <-> in_box (Box 2 3 1 2) p.
Proof. exact (box_poly_hull (Box 2 3 1 2) p ltac:(split; cbn; lra)). Qed.
Lemma big_open p : open_hull big p -> px p < 2.
Proof.
  intros (ws & L & HF & S & ->). destruct ws as [|w0 [|w1 [|w2 [|w3 [|w4 [|w5 ws]]]]]]; try discriminate L.
  repeat match goal with H : Forall _ (_ :: _) |- _ => let h := fresh "P" in pose proof (Forall_inv H) as h; apply Forall_inv_tail in H; cbn beta in h end.
  cbn in S |- *. lra.
Qed.
Lemma low_open p : open_hull low p -> 2 < px p /\ py p < 1.
Proof.
  intros (ws & L & HF & S & ->). destruct ws as [|w0 [|w1 [|w2 [|w3 [|w4 ws]]]]]; try discriminate L.
  repeat match goal with H : Forall _ (_ :: _) |- _ => let h := fresh "P" in pose proof (Forall_inv H) as h; apply Forall_inv_tail in H; cbn beta in h end.
  cbn in S |- *. lra.
Qed.
Lemma high_open p : open_hull high p -> 2 < px p /\ 1 < py p.
Proof.
  intros (ws & L & HF & S & ->). destruct ws as [|w0 [|w1 [|w2 [|w3 [|w4 ws]]]]]; try discriminate L.
  repeat match goal with H : Forall _ (_ :: _) |- _ => let h := fresh "P" in pose proof (Forall_inv H) as h; apply Forall_inv_tail in H; cbn beta in h end.
  cbn in S |- *. lra.
Qed.
Lemma quad_tiles (S : pt -> Prop) : (forall p, S p -> 0 <= px p <= 3 /\ 0 <= py p <= 2) -> tiles (@grid R _) quad_faces (-1) S.
Proof.
  intros HS. split.
  - intros j j' b b' p Hj Hj' Hne (H1 & H2).
    apply quad_face in Hj as [(-> & ->)|[(-> & ->)|(-> & ->)]], Hj' as [(-> & ->)|[(-> & ->)|(-> & ->)]]; try congruence;
    repeat match goal with
    | H : open_hull big _ |- _ => apply big_open in H
    | H : open_hull low _ |- _ => apply low_open in H
    | H : open_hull high _ |- _ => apply high_open in H end; lra.
  - intros p Hp. specialize (HS p Hp). destruct (Rle_lt_dec (px p) 2) as [H|H].
    + exists 0%Z, big. split; [exact quad_big|]. apply big_hull. lra.
    + destruct (Rle_lt_dec (py p) 1) as [K|K].
      * exists 1%Z, low. split; [exact quad_low|]. apply low_hull. unfold in_box. cbn. lra.
      * exists 2%Z, high. split; [exact quad_high|]. apply high_hull. unfold in_box. cbn. lra.
Qed.

(** the hanging node and a point between the vertices of the long side are
    found; the area of a box that straddles the hanging node is exact *)
Theorem C68_example : exists t js rows, CellTree2d_init (T:=R) g0 grid quad_faces (-1) 4 2 = Ok t
  /\ CellTree2d_locate_points g0 t [Pt 2 1; Pt 2 (1/2); Pt 1 (3/2)] None = Ok js
  /\ Forall (fun j => j <> (-1)%Z) js
  /\ CellTree2d_intersect_boxes g0 2 t [Box 1 3 (1/2) (3/2)] = Ok rows
  /\ In ((0, 0)%Z, 1) rows /\ sumR (map snd (rows_at 0 rows)) = 2.
Proof.
  destruct quad_tree as (t & E). exists t.
  destruct (C68_default_tolerance _ _ _ _ _ _ _ quad_mesh (orientable_hanging _ _ _ quad_orientable) E g0 [Pt 2 1; Pt 2 (1/2); Pt 1 (3/2)])
    as (js & Hj & Hl & H).
  assert (HB : Forall proper_box [Box 1 3 (1/2) (3/2)]) by (constructor; [split; cbn; lra|constructor]).
  destruct (C68_intersect_boxes _ _ _ _ _ _ _ quad_mesh quad_orientable E _ HB) as (rows & Hr & _ & HI).
  exists js, rows. split; auto. split; auto. split; [|split; [apply Hr; lia|split]].
  - apply Forall_forall. intros j Hin. apply In_nth_error in Hin as (k & Ek).
    assert (Hk : (k < length js)%nat) by (apply nth_error_Some; congruence). cbn in Hl.
    destruct k as [|[|[|k]]]; [| | |lia].
    + apply (H 0%nat (Pt 2 1) j 0%Z big eq_refl Ek quad_big). apply big_hull. cbn. lra.
    + apply (H 1%nat (Pt 2 (1/2)) j 0%Z big eq_refl Ek quad_big). apply big_hull. cbn. lra.
    + apply (H 2%nat (Pt 1 (3/2)) j 0%Z big eq_refl Ek quad_big). apply big_hull. cbn. lra.
  - apply HI. exists (Box 1 3 (1/2) (3/2)), big. split; [lia|]. split; [reflexivity|]. split; [exact quad_big|]. split; [|lra].
    left. exists (copy_box_vertices (Box 1 2 (1/2) (3/2))). split; [apply box_poly_convex; split; cbn; lra|]. split.
    + intros p. rewrite box_poly_hull by (split; cbn; lra). rewrite big_hull. unfold in_box. cbn. lra.
    + rewrite box_poly_area. cbn. lra.
  - destruct (C68_conservative _ _ _ _ _ _ _ quad_mesh quad_orientable E) as (H1 & _).
    pose proof (H1 _ HB g0 2%nat rows ltac:(lia) (Hr g0 2%nat ltac:(lia)) 0%nat _ eq_refl) as K. cbn [Z.of_nat] in K. rewrite K; [cbn; lra|].
    apply quad_tiles. unfold in_box. cbn. intros p Hp. lra.
Qed.

Print Assumptions C68_convex_mesh.
Print Assumptions C68_stored_counter_clockwise.
Print Assumptions C68_locate_points.
Print Assumptions C68_default_tolerance.
Print Assumptions C68_locate_faces.
Print Assumptions C68_clip_area.
Print Assumptions C68_intersect_faces.
Print Assumptions C68_intersect_boxes.
Print Assumptions C68_conservative.
Print Assumptions C68_example.
