(** CellTree2d.intersect_boxes in binary64 on faces with sides in any direction. *)
From Coq Require Import Reals Lra Psatz.
From Flocq Require Import IEEE754.BinarySingleNaN Core.
From Verif Require Import RBase NumB64 NumSub NumRoom FBase MUtils MGeometry MAlgorithms MCreation MQuery MCelltree
  SpecTree SpecQuery SpecApi SpecPoly SpecMesh SpecArea SpecClear PMesh PInit PBuild PPoints PApi PFaces PClip PGarbage GTriangle GConvex GHull GCcw GFaces GArea GClip GClipArea GTiling GMeasure
  FBuild FMesh FPoint FLocate FCut FOrient FTurn FArea FOverlap FSlant FSlantClip FSlantFaces PropClip PropFaces PropArea PropFloatFaces.
Open Scope R_scope.

Theorem float_boxes_clear k g (vs : list (point b64)) faces fill nb cpl (t : tree2d (T:=b64)) :
  (-200 <= k <= 300)%Z -> mesh_ok vs faces fill -> bounded_vertices k vs -> columns 6 faces ->
  CellTree2d_init g vs faces fill nb cpl = Ok t ->
  forall boxes, Forall (float_box k) boxes ->
  exists rows,
    (forall g' n_threads, (1 <= n_threads)%nat -> CellTree2d_intersect_boxes g' n_threads t boxes = Ok rows)
    /\ NoDup (map fst rows)
    (* every row is a box and a face; the area is accurate for a pair that is clear *)
    /\ (forall i j A, In ((i, j), A) rows -> nltb (nofZ 0) A = true /\ exists a, (0 <= i)%Z /\ nth_error boxes (Z.to_nat i) = Some a
          /\ (exists b, face_poly (map rp vs) faces fill j b)
          /\ forall b W d, ccw_poly (map rp vs) faces fill j b -> clear_pair k W d (copy_box_vertices (rbox a)) b ->
               is_finite A = true /\ 0 < B2R A
               /\ exists A', area_of (fun p => in_box (rbox a) p /\ hull b p) A' /\ Rabs (B2R A - A') <= INR (length b) * (bpow radix2 (k - 36) * W))
    (* a clear pair with a larger area than the error has a row *)
    /\ (forall i j a b W d A', (0 <= i)%Z -> nth_error boxes (Z.to_nat i) = Some a -> ccw_poly (map rp vs) faces fill j b ->
          clear_pair k W d (copy_box_vertices (rbox a)) b ->
          area_of (fun p => in_box (rbox a) p /\ hull b p) A' -> INR (length b) * (bpow radix2 (k - 36) * W) < A' ->
          exists A, In ((i, j), A) rows).
Proof.
  intros Hk Hm HB Cc E boxes HBx. rewrite Forall_forall in HBx.
  pose proof (init_built _ _ _ _ _ _ _ Hm E) as Hb. pose proof (bt_vertices _ _ _ _ _ Hb) as Evs.
  pose proof (init_ccw_float _ _ _ _ _ _ _ Hm E) as Hcc.
  destruct (boxes_result t boxes (built_valid _ _ _ _ _ Hb)) as (pairs & Hr & Hnd & Hin & _).
  destruct (Zb_exact 0 ltac:(cbv; discriminate)) as (F0 & E0).
  assert (HOne : forall i j a fb b g', (0 <= i)%Z -> (0 <= j)%Z -> nth_error boxes (Z.to_nat i) = Some a -> nth_error (elements (celltree_data t)) (Z.to_nat j) = Some fb ->
     poly_of vs fb b -> box_area_one g' boxes vs (elements (celltree_data t)) (i, j) = polygon_polygon_clip_area g' (copy_box_vertices a) b).
  { intros i j a fb b g' H0 H1 Ea Eb Pb. destruct (ccw_columns _ _ _ _ (mo_faces _ _ _ Hm) Hcc _ _ Eb) as (Wb & _).
    unfold box_area_one. cbn [fst snd]. rewrite (aget_pos _ _ _ H0 Ea), (aget_pos _ _ _ H1 Eb). cbn [bind].
    rewrite (copy_vertices_ok g' _ _ _ Wb Pb). reflexivity. }
  assert (EX : forall i j, In (i, j) pairs -> exists a fb b, (0 <= i)%Z /\ (0 <= j)%Z /\ nth_error boxes (Z.to_nat i) = Some a
    /\ nth_error (elements (celltree_data t)) (Z.to_nat j) = Some fb /\ poly_of vs fb b).
  { intros i j H. apply Hin in H as (a & bb & H0 & H1 & Ea & Ebb & _).
    pose proof (vt_elements _ (built_valid _ _ _ _ _ Hb)) as L2.
    assert (Z.to_nat j < length (bb_coords (celltree_data t)))%nat by (apply nth_error_Some; congruence).
    destruct (nth_error (elements (celltree_data t)) (Z.to_nat j)) as [fb|] eqn:Ef; [|apply nth_error_None in Ef; lia].
    destruct (ccw_columns _ _ _ _ (mo_faces _ _ _ Hm) Hcc _ _ Ef) as (Wb & _). destruct (wf_poly vs fb Wb) as (b & Pb).
    exists a, fb, b. auto 6. }
  assert (Some_ : forall ij, In ij pairs -> exists A, forall g', box_area_one g' boxes vs (elements (celltree_data t)) ij = Ok A).
  { intros (i, j) Hij. destruct (EX i j Hij) as (a & fb & b & H0 & H1 & Ea & Eb & Pb).
    destruct (ccw_columns _ _ _ _ (mo_faces _ _ _ Hm) Hcc _ _ Eb) as (Wb & rb & Ib & Lb).
    pose proof (F2_length _ _ _ Pb) as Lb'. destruct Wb as (Wb & _).
    unfold columns in Cc. rewrite Forall_forall in Cc. specialize (Cc _ Ib). cbn beta in Cc.
    destruct (clip_area_any g (copy_box_vertices a) b) as (A & EA); [cbn; lia|lia| |].
    - change (zlen (copy_box_vertices a)) with 4%Z. assert (HL : (length b <= 6)%nat) by lia. clear - HL.
      destruct b as [|? [|? [|? [|? [|? [|? [|? b]]]]]]]; cbn [length] in *; try lia; vm_compute; discriminate.
    - exists A. intros g'. rewrite (HOne i j a fb b g'); auto. rewrite (clip_area_any_garbage g' g). exact EA. }
  assert (ST : forall j b, ccw_poly (map rp vs) faces fill j b -> convex_ccw b /\ exists fb b0, (0 <= j)%Z /\ nth_error (elements (celltree_data t)) (Z.to_nat j) = Some fb
     /\ wf_face (length vs) fb /\ poly_of vs fb b0 /\ map rp b0 = b /\ Forall (bpt k) b0).
  { intros j b (p & (f & H0 & Ef & Pf) & Hcl & Ha & Ca). split; auto.
    destruct (ccw_stored k vs _ _ (Z.to_nat j) f p b ltac:(lia) (mo_faces _ _ _ Hm) Hcc HB Ef Pf Hcl Ha Ca) as (fb & b0 & R).
    exists fb, b0. split; auto. }
  assert (CP : forall i j a b W d, (0 <= i)%Z -> nth_error boxes (Z.to_nat i) = Some a -> ccw_poly (map rp vs) faces fill j b ->
     clear_pair k W d (copy_box_vertices (rbox a)) b ->
     exists A, (forall g', box_area_one g' boxes vs (elements (celltree_data t)) (i, j) = Ok A) /\ is_finite A = true
       /\ exists A', area_of (fun p => in_box (rbox a) p /\ hull b p) A' /\ Rabs (B2R A - A') <= INR (length b) * (bpow radix2 (k - 36) * W)).
  { intros i j a b W d H0 Ea Hbb (HW & HS & HSd & Pd & Hdd & HC).
    destruct (HBx a (nth_error_In _ _ Ea)) as (X1 & X2 & Y1 & Y2 & Pa). pose proof (box_poly_convex _ Pa) as Ca.
    assert (Ba : Forall (bpt k) (copy_box_vertices a)) by (apply Forall_forall; intros p [<-|[<-|[<-|[<-|[]]]]]; split; assumption).
    destruct (ST j b Hbb) as (Cb & fb & b0 & H1 & Eb & Wb & Pb & Rb & Bb). subst b.
    assert (L32 : (length (copy_box_vertices a) + length b0 <= 64)%nat).
    { pose proof (poly_len (map rp vs) fb (map rp b0)) as L2. rewrite !map_length in L2. specialize (L2 Wb (poly_of_map _ _ _ Pb)). cbn [copy_box_vertices length]. lia. }
    change (copy_box_vertices (rbox a)) with (map rp (copy_box_vertices a)) in *.
    destruct (float_clip_clear g (copy_box_vertices a) b0 k W d Hk HW Ba Bb HS Ca Cb L32 ltac:(intros u v Huv; apply HSd; now right) Pd Hdd HC) as (A & EA & FA & A' & HA & HE).
    exists A. split; [|split; auto].
    - intros g'. rewrite (HOne i j a fb b0 g'); auto. rewrite (clip_area_any_garbage g' g). exact EA.
    - exists A'. split; [|now rewrite map_length]. eapply area_of_ext; [|exact HA].
      intros p. cbn beta. rewrite box_poly_B, (box_poly_hull _ p Pa). reflexivity. }
  set (fA := fun ij => match box_area_one g boxes vs (elements (celltree_data t)) ij with Ok A => A | Err _ => nofZ 0 end).
  assert (EF : forall i j A, (forall g', box_area_one g' boxes vs (elements (celltree_data t)) (i, j) = Ok A) -> fA (i, j) = A).
  { intros i j A HH. unfold fA. now rewrite HH. }
  assert (POS : forall A : b64, is_finite A = true -> (nltb (nofZ 0) A = true <-> 0 < B2R A)).
  { intros A FA. rewrite nltb_B by (first [exact FA|exact F0]). change (nofZ 0 : b64) with (Zb 0). rewrite E0. apply Rltb_iff. }
  exists (map (fun ij => (ij, fA ij)) (filter (fun ij => nltb (nofZ 0) (fA ij)) pairs)). split; [|split; [|split]].
  - intros g' n Hn. specialize (Hr g' n Hn). unfold CellTree2d_locate_boxes in Hr. unfold CellTree2d_intersect_boxes.
    rewrite Hr. cbn [bind]. unfold box_area_of_intersection. rewrite Evs. rewrite (Base.mapres_ok _ fA).
    + cbn [bind]. f_equal. apply filter_sel_any.
    + intros (i, j) Hij. destruct (Some_ (i, j) Hij) as (A & EA). rewrite EA. f_equal. symmetry. now apply EF.
  - rewrite map_map. cbn [fst]. rewrite map_id. now apply NoDup_filter.
  - intros i j A HIn. apply in_map_iff in HIn as (ij & Eij & Hf). injection Eij as -> <-. apply filter_In in Hf as (Hij & Hp).
    split; auto. destruct (EX i j Hij) as (a & fb & b & H0 & H1 & Ea & Eb & Pb). exists a. split; auto. split; auto. split.
    + eapply stored_back_float; eauto.
    + intros b' W d Hbb Hcl. destruct (CP i j a b' W d H0 Ea Hbb Hcl) as (A & EA & FA & A' & HA & HE). rewrite (EF _ _ _ EA) in *.
      split; auto. split; [now apply POS|]. eauto.
  - intros i j a b W d A' H0 Ea Hbb Hcl HA HG.
    destruct (CP i j a b W d H0 Ea Hbb Hcl) as (A & EA & FA & A2 & HA2 & HE). assert (A2 = A') by apply (area_of_unique _ _ _ HA2 HA). subst A2.
    assert (HE0 : 0 <= INR (length b) * (bpow radix2 (k - 36) * W)).
    { apply Rmult_le_pos; [apply pos_INR|]. apply Rmult_le_pos; [apply bpow_ge_0|]. destruct Hcl as (HW & _). pose proof (bpow_ge_0 radix2 (k - 42)). lra. }
    exists A. apply in_map_iff. exists (i, j). rewrite (EF _ _ _ EA). split; auto. apply filter_In. rewrite (EF _ _ _ EA). split.
    + destruct (HBx a (nth_error_In _ _ Ea)) as (X1 & X2 & Y1 & Y2 & Pa). pose proof (box_poly_convex _ Pa) as Ca.
      destruct (ST j b Hbb) as (Cb & fb & b0 & H1 & Eb & Wb & Pb & Rb & Bb). subst b.
      destruct (Forall2_nth_l _ _ _ _ _ (mt_boxes _ (bt_mesh _ _ _ _ _ Hb)) Eb) as (bb & Ebb & b' & Pb' & Tb).
      rewrite Evs in Pb'. rewrite (poly_of_fun _ _ _ _ Pb' Pb) in Tb.
      pose proof (tight_box_B k b0 bb Bb Tb) as TbR. destruct (tight_bounded k b0 bb Bb Tb) as ((f5 & _) & (f6 & _) & (f7 & _) & (f8 & _)).
      assert (HA3 : area_of (fun p => hull (copy_box_vertices (rbox a)) p /\ hull (map rp b0) p) A').
      { eapply area_of_ext; [|exact HA]. intros p. cbn beta. rewrite (box_poly_hull _ p Pa). reflexivity. }
      destruct (proj1 (positive_interior _ _ A' Ca Cb HA3) ltac:(lra)) as (p & P1 & P2).
      apply (box_interior _ p Pa) in P1. pose proof (interior_box _ _ p Cb TbR P2) as P3.
      apply Hin. exists a, bb. split; [exact H0|]. split; [exact H1|]. split; [exact Ea|]. split; [exact Ebb|].
      destruct X1 as (f1 & _), X2 as (f2 & _), Y1 as (f3 & _), Y2 as (f4 & _). unfold strict_overlap.
      rewrite !nltb_B by auto. rewrite !Rltb_iff. unfold rbox in P1, P3. cbn [xmin xmax ymin ymax] in P1, P3. lra.
    + apply POS; auto. apply Rabs_le_iff in HE. lra.
Qed.
