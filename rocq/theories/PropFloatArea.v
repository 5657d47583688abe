(** Property theorems about binary64: overlap areas (C49). *)
From Coq Require Import Reals Lra Psatz.
From Flocq Require Import IEEE754.BinarySingleNaN Core.
From Verif Require Import RBase NumB64 NumSub NumRoom FBase MUtils MGeometry MAlgorithms MCreation MQuery MCelltree
  SpecTree SpecQuery SpecApi SpecPoly SpecMesh SpecArea PMesh PInit PBuild PPoints PApi GTriangle GConvex GHull GBuild GFaces GArea GClipArea GTiling
  FBuild FMesh FPoint FLocate FCut FClip FArea FOrient FOverlap Examples PropEdges PropPoints PropFloat PropFaces PropArea PropFloatPoints.
Open Scope R_scope.

(** ** C49: the overlap with axis-parallel rectangles is accurate in binary64 *)

(** Coordinates up to 2^k in magnitude, W the extent of the two polygons: the
    error is at most 2^18 units in the last place of 2^k times W *)
Theorem C49_float_clip_area g (a b : list (point b64)) k W :
  (-200 <= k <= 300)%Z -> bpow radix2 (k - 46) <= W <= bpow radix2 (k + 1) ->
  Forall (bpt k) a -> Forall (bpt k) b -> spanning W (map rp a ++ map rp b) ->
  convex_ccw (map rp a) -> (length a <= 12)%nat ->
  convex_ccw (map rp b) -> length b = 4%nat -> (forall u v, In (u, v) (poly_edges (map rp b)) -> axis_side u v) ->
  exists A, polygon_polygon_clip_area g a b = Ok A /\ is_finite A = true
    /\ exists A', area_of (fun p => hull (map rp a) p /\ hull (map rp b) p) A'
        /\ Rabs (B2R A - A') <= bpow radix2 (k - 35) * W.
Proof. exact (float_clip_area g a b k W). Qed.

Theorem C49_float_intersect_boxes k g (vs : list (point b64)) faces fill nb cpl t :
  (-200 <= k <= 300)%Z -> mesh_ok vs faces fill -> bounded_vertices k vs -> rect_mesh (map rp vs) faces fill ->
  CellTree2d_init g vs faces fill nb cpl = Ok t ->
  forall boxes, Forall (float_box k) boxes ->
  exists rows,
    (forall g' n_threads, (1 <= n_threads)%nat -> CellTree2d_intersect_boxes g' n_threads t boxes = Ok rows)
    /\ NoDup (map fst rows)
    (* every row is an overlapping pair with nearly its area *)
    /\ (forall i j A, In ((i, j), A) rows -> exists b poly A',
          (0 <= i)%Z /\ nth_error boxes (Z.to_nat i) = Some b /\ face_poly (map rp vs) faces fill j poly
          /\ area_of (fun p => in_box (rbox b) p /\ hull poly p) A' /\ 0 < A' /\ is_finite A = true /\ 0 < B2R A
          /\ forall W, bpow radix2 (k - 46) <= W <= bpow radix2 (k + 1) -> spanning W (copy_box_vertices (rbox b) ++ poly) ->
               Rabs (B2R A - A') <= bpow radix2 (k - 35) * W)
    (* every pair with a larger overlap than the error has a row *)
    /\ (forall i j b poly A' W, (0 <= i)%Z -> nth_error boxes (Z.to_nat i) = Some b -> face_poly (map rp vs) faces fill j poly ->
          area_of (fun p => in_box (rbox b) p /\ hull poly p) A' ->
          bpow radix2 (k - 46) <= W <= bpow radix2 (k + 1) -> spanning W (copy_box_vertices (rbox b) ++ poly) ->
          bpow radix2 (k - 35) * W < A' -> exists A, In ((i, j), A) rows).
Proof. exact (float_intersect_boxes k g vs faces fill nb cpl t). Qed.

(** Clipping against a slanted side has no such bound.  Two triangles with
    coordinates below 9, the query's side on a side of the face: the rounded
    turns differ in sign, the two nearly parallel lines are intersected, and
    the reported area is six times the query's own (sutherland_hodgman.py lines
    26-30: "Floating point rounding should not be an issue") *)
Notation q m e := (B754_finite (prec:=prec) (emax:=emax) false m e eq_refl).
Definition spike_tree : list (Z * Z) := [(-3, 8); (0, 0); (8, 3)]%Z.
Definition spike_query : list (point b64) :=
  [Pt (q 6305039478318694 (-50)) (q 4728779608739021 (-51));   (* (5.6, 2.1) *)
   Pt (q 8106479329266893 (-50)) (q 6079859496950170 (-51));   (* (7.2, 2.7) *)
   Pt (q 6305039478318694 (-50)) (q 4616189618054758 (-50))].  (* (5.6, 4.1) *)

Lemma spike_area g g' : match match CellTree2d_init (T:=b64) g (map ptZ spike_tree) [[0; 1; 2]]%Z (-1) 4 2 with
    Ok t => CellTree2d_intersect_faces g' 1 t spike_query [[0; 1; 2]]%Z (-1) | Err e => Err e end with
  | Ok [((0%Z, 0%Z), A)] => is_finite A && nltb (nofZ 11) A | _ => false end = true.
Proof. vm_compute. reflexivity. Qed.

Lemma spike_points : map rp spike_query =
  [Pt (6305039478318694 / 2 ^ 50) (4728779608739021 / 2 ^ 51); Pt (8106479329266893 / 2 ^ 50) (6079859496950170 / 2 ^ 51);
   Pt (6305039478318694 / 2 ^ 50) (4616189618054758 / 2 ^ 50)].
Proof.
  unfold spike_query. cbn [map]. unfold rp, B2R, F2R. cbn [px py cond_Zopp Fnum Fexp].
  change (bpow radix2 (-50)) with (/ IZR (2 ^ 50)). change (bpow radix2 (-51)) with (/ IZR (2 ^ 51)).
  replace (IZR (2 ^ 50)) with (2 ^ 50) by (rewrite (pow_IZR 2 50); reflexivity).
  replace (IZR (2 ^ 51)) with (2 ^ 51) by (rewrite (pow_IZR 2 51); reflexivity).
  unfold Rdiv. reflexivity.
Qed.

Lemma spike_query_convex : convex_ccw (map rp spike_query).
Proof. rewrite spike_points. convex_check. Qed.

Lemma spike_tree_convex : convex_ccw (map (ptZ (T:=R)) spike_tree).
Proof. cbn [map spike_tree]. convex_check. Qed.

Theorem C49_float_slanted_refuted : exists (vs qs : list (point b64)) faces,
  mesh_ok vs faces (-1) /\ bounded_vertices 3 vs /\ convex_mesh (map rp vs) faces (-1)
  /\ mesh_ok qs faces (-1) /\ bounded_vertices 3 qs /\ convex_mesh (map rp qs) faces (-1)
  /\ forall g g', exists t A polyq polyt A',
       CellTree2d_init g vs faces (-1) 4 2 = Ok t /\ CellTree2d_intersect_faces g' 1 t qs faces (-1) = Ok [((0%Z, 0%Z), A)]
       /\ face_poly (map rp qs) faces (-1) 0 polyq /\ face_poly (map rp vs) faces (-1) 0 polyt
       /\ area_of (fun p => hull polyq p /\ hull polyt p) A'
       /\ is_finite A = true /\ 6 * A' < B2R A.
Proof.
  assert (F1 : forall (l : list pt) a b c, l = [a; b; c] -> face_poly l [[0; 1; 2]]%Z (-1) 0 l).
  { intros l a b c ->. exists [0; 1; 2]%Z. split; [lia|]. split; [reflexivity|]. unfold poly_of. cbn. repeat constructor; auto; lia. }
  assert (F2 : forall (l : list pt) a b c j poly, l = [a; b; c] -> face_poly l [[0; 1; 2]]%Z (-1) j poly -> poly = l).
  { intros l a b c j poly -> (f & _ & En & Hp). apply nth_error_In in En. cbn in En. destruct En as [<-|[]].
    unfold poly_of in Hp. cbn in Hp. invert_poly. reflexivity. }
  assert (ET : map rp (map (ptZ (T:=b64)) spike_tree) = map (ptZ (T:=R)) spike_tree) by (apply rp_ptZ; vm_compute; reflexivity).
  exists (map ptZ spike_tree), spike_query, [[0; 1; 2]]%Z.
  split; [apply zmesh_ok; [vm_compute; reflexivity|discriminate|repeat constructor; simpl; lia]|].
  split; [apply zbounded; [lia|vm_compute; reflexivity]|].
  split. { intros j poly H. rewrite ET in H. rewrite (F2 _ _ _ _ _ _ eq_refl H). left. exact spike_tree_convex. }
  split. { constructor; [|discriminate|repeat constructor; simpl; lia].
    rewrite Forall_forall. intros p [<-|[<-|[<-|[]]]]; split; reflexivity. }
  split.
  { assert (G : forall p, In p (map rp spike_query) -> Rabs (px p) <= bpow radix2 3 /\ Rabs (py p) <= bpow radix2 3).
    { rewrite spike_points. change (bpow radix2 3) with 8. intros p [<-|[<-|[<-|[]]]]; cbn [px py]; split; apply Rabs_le_iff; lra. }
    apply Forall_forall. intros p Hp. destruct (G _ (in_map rp _ _ Hp)) as (G1 & G2).
    destruct Hp as [<-|[<-|[<-|[]]]]; split; (split; [reflexivity|assumption]). }
  split. { intros j poly H. rewrite (F2 _ _ _ _ _ _ spike_points H). left. exact spike_query_convex. }
  intros g g'. pose proof (spike_area g g') as H.
  destruct (CellTree2d_init g (map ptZ spike_tree) [[0; 1; 2]]%Z (-1) 4 2) as [t|e]; [|discriminate].
  destruct (CellTree2d_intersect_faces g' 1 t spike_query [[0; 1; 2]]%Z (-1)) as [[|((i, j), A) [|r rows]]|e] eqn:EQ; try discriminate H;
    destruct i; try discriminate H; destruct j; try discriminate H.
  apply andb_prop in H as (FA & LA). 
  destruct (clip_area_exact (g0 (T:=R)) _ _ spike_query_convex spike_tree_convex) as (A' & _ & HA'); [cbn; lia|].
  exists t, A, (map rp spike_query), (map rp (map ptZ spike_tree)), A'.
  split; [reflexivity|]. split; [exact EQ|]. split; [exact (F1 _ _ _ _ spike_points)|]. split; [exact (F1 _ _ _ _ ET)|].
  split; [rewrite ET; exact HA'|]. split; [exact FA|].
  rewrite nltb_B in LA by (first [exact FA|apply Zb_exact; lia]). rewrite Rltb_iff in LA. cbn [nofZ NumB64] in LA.
  destruct (Zb_exact 11 ltac:(lia)) as (_ & E11). rewrite E11 in LA.
  assert (HB : A' <= shoelace (map rp spike_query)).
  { apply (area_meet_le (hull (map rp spike_query)) _ _ _ spike_tree_convex); [|exact HA'].
    left. exists (map rp spike_query). split; [exact spike_query_convex|]. split; [reflexivity|reflexivity]. }
  assert (HS : shoelace (map rp spike_query) < 17 / 10).
  { rewrite spike_points. unfold shoelace. cbn. lra. }
  lra.
Qed.

(** ** A concrete case: the squares of the grid of Examples *)
Definition square_faces : list (list Z) := [[0;1;5;4];[1;2;6;5];[2;6;7;3];[4;5;9;8];[5;6;10;9]]%Z.
Lemma squares_mesh : mesh_ok (T:=b64) grid square_faces (-1).
Proof. apply (zmesh_ok grid_pts square_faces); [vm_compute; reflexivity|discriminate|]. repeat constructor; simpl; lia. Qed.
Lemma squares_rect : rect_mesh (@grid R _) square_faces (-1).
Proof.
  intros j poly (f & _ & En & Hp). apply nth_error_In in En. cbn in En.
  repeat destruct En as [En|En]; try contradiction; subst f; unfold poly_of in Hp; cbn in Hp; invert_poly;
    (split; [first [left; convex_check|right; cbn [rev app]; convex_check]|split; [reflexivity|]]);
    intros u v He; cbn in He; repeat destruct He as [He|He]; try contradiction; inversion He; subst u v; unfold axis_side; cbn [px py ptZ fst snd nofZ NumR];
      first [left; split; [lra|]|right; split; [lra|]]; (split; [apply Rle_trans with 1; [change 1 with (bpow radix2 0); apply bpow_le; lia|]|left]);
      unfold Rabs; destruct Rcase_abs; lra.
Qed.

Lemma square_wide j poly b : face_poly (@grid R _) square_faces (-1) j poly -> float_box 2 b -> spanning 8 (copy_box_vertices (rbox b) ++ poly).
Proof.
  intros (f & _ & En & Hp) (X1 & X2 & Y1 & Y2 & _).
  assert (G : forall p, In p (copy_box_vertices (rbox b) ++ poly) -> -4 <= px p <= 4 /\ -4 <= py p <= 4).
  { destruct X1 as (_ & X1), X2 as (_ & X2), Y1 as (_ & Y1), Y2 as (_ & Y2). change (bpow radix2 2) with 4 in *. apply Rabs_le_iff in X1, X2, Y1, Y2.
    intros p Hin. apply in_app_or in Hin as [Hin|Hin].
    - cbn in Hin. repeat destruct Hin as [<-|Hin]; try contradiction; cbn; lra.
    - apply nth_error_In in En. cbn in En. repeat destruct En as [En|En]; try contradiction; subst f; unfold poly_of in Hp; cbn in Hp; invert_poly;
        cbn in Hin; repeat destruct Hin as [<-|Hin]; try contradiction; cbn; lra. }
  intros p p' H H'. apply G in H, H'. split; apply Rabs_le_iff; lra.
Qed.

(** each box with coordinates up to 4 and each square: an overlap of more than
    2^-30 is reported, and what is reported is accurate to 2^-30 *)
Example C49_example : exists t, CellTree2d_init (T:=b64) g0 grid square_faces (-1) 4 2 = Ok t
  /\ forall boxes, Forall (float_box 2) boxes -> exists rows, CellTree2d_intersect_boxes g0 4 t boxes = Ok rows
     /\ forall i j b poly A', (0 <= i)%Z -> nth_error boxes (Z.to_nat i) = Some b -> face_poly (@grid R _) square_faces (-1) j poly ->
          area_of (fun p => in_box (rbox b) p /\ hull poly p) A' -> bpow radix2 (-30) < A' ->
          exists A, In ((i, j), A) rows /\ Rabs (B2R A - A') <= bpow radix2 (-30).
Proof.
  assert (Ht : exists t, CellTree2d_init (T:=b64) g0 grid square_faces (-1) 4 2 = Ok t).
  { assert (Hb : match CellTree2d_init (T:=b64) g0 grid square_faces (-1) 4 2 with Ok _ => true | _ => false end = true) by (vm_compute; reflexivity).
    destruct CellTree2d_init as [t|]; [eauto|discriminate]. }
  destruct Ht as (t & E). exists t. split; auto. intros boxes HB.
  destruct (C49_float_intersect_boxes 2 g0 grid square_faces (-1) 4 2 t ltac:(lia) squares_mesh) with (boxes := boxes) as (rows & Er & _ & Hr & Hc); auto.
  - apply zbounded; [lia|]. vm_compute. reflexivity.
  - rewrite grid_rp. exact squares_rect.
  - rewrite grid_rp in Hr, Hc. exists rows. split; [apply Er; lia|].
    assert (W8 : bpow radix2 (2 - 46) <= 8 <= bpow radix2 (2 + 1)) by (change 8 with (bpow radix2 3); split; apply bpow_le; lia).
    assert (E8 : bpow radix2 (2 - 35) * 8 = bpow radix2 (-30)) by (change 8 with (bpow radix2 3); rewrite <- bpow_plus; f_equal; lia).
    intros i j b poly A' H0 Eb Hf HA HL. rewrite Forall_forall in HB. pose proof (HB b (nth_error_In _ _ Eb)) as Hb.
    pose proof (square_wide j poly b Hf Hb) as HS. rewrite <- E8 in HL.
    destruct (Hc i j b poly A' 8 H0 Eb Hf HA W8 HS HL) as (A & HI). exists A. split; auto.
    destruct (Hr i j A HI) as (b' & poly' & A2 & _ & Eb' & Hf' & HA2 & _ & _ & _ & HW).
    assert (b' = b) by congruence. subst b'.
    assert (poly' = poly).
    { destruct Hf as (f & _ & En & Hp), Hf' as (f' & _ & En' & Hp'). assert (f' = f) by congruence. subst f'. eapply poly_of_fun; eauto. }
    subst poly'. rewrite (area_of_unique _ _ _ HA2 HA) in HW. rewrite <- E8. apply HW; auto.
Qed.

Print Assumptions C49_float_clip_area.
Print Assumptions C49_float_intersect_boxes.
Print Assumptions C49_float_slanted_refuted.
