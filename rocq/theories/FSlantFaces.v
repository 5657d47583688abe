(** CellTree2d.intersect_faces in binary64: the pairs whose corners are clear. *)
From Coq Require Import Reals Lra Psatz.
From Flocq Require Import IEEE754.BinarySingleNaN Core.
From Verif Require Import RBase NumB64 NumSub NumRoom FBase MUtils MGeometry MAlgorithms MCreation MQuery MCelltree
  SpecTree SpecQuery SpecApi SpecPoly SpecMesh SpecArea SpecClear PMesh PInit PBuild PPoints PApi PFaces PClip PGarbage GTriangle GConvex GHull GCcw GFaces GArea GClip GClipArea GTiling GMeasure GHelly GSat
  FBuild FMesh FPoint FLocate FCut FOrient FTurn FSat FArea FOverlap FSlant FSlantClip PropClip PropFaces PropArea PropFloatFaces.
Open Scope R_scope.

(** the corners of face j in counter-clockwise order, for a face whose
    orientation is decided correctly (FTurn) *)
Definition ccw_poly (vs : list pt) (faces : list (list Z)) (fill j : Z) (a : list pt) : Prop :=
  exists p, face_poly vs faces fill j p /\ clear_face p /\ (a = p \/ a = rev p) /\ convex_ccw a.

(** what the accuracy of one pair depends on *)
Definition clear_pair (k : Z) (W d : R) (a b : list pt) : Prop :=
  bpow radix2 (k - 42) <= W <= bpow radix2 (k + 1) /\ spanning W (a ++ b)
  /\ (forall u v, In (u, v) (poly_edges a) \/ In (u, v) (poly_edges b) -> bpow radix2 (-250) <= side_size u v)
  /\ 0 < d /\ bpow radix2 (k - 41) * W <= d * d /\ clear_corners d a b.

Lemma ccw_one_way p : convex_ccw p -> convex_ccw (rev p) -> False.
Proof.
  intros H1 H2. assert (S1 := shoelace_pos p H1). assert (S2 := shoelace_pos (rev p) H2). rewrite shoelace_rev in S2. lra.
Qed.

Lemma ccw_stored k vs fs fs' j f p a : (-251 <= k <= 400)%Z -> Forall (wf_face (length vs)) fs -> counter_clockwise vs fs = Ok fs' -> bounded_vertices k vs ->
  nth_error fs j = Some f -> poly_of (map rp vs) f p -> clear_face p -> (a = p \/ a = rev p) -> convex_ccw a ->
  exists f' poly', nth_error fs' j = Some f' /\ wf_face (length vs) f' /\ poly_of vs f' poly' /\ map rp poly' = a /\ Forall (bpt k) poly'.
Proof.
  intros Hk Hw Ec Hb Ef Pf Hcl Ha Ca. rewrite Forall_forall in Hw. specialize (Hw f (nth_error_In _ _ Ef)).
  destruct (wf_poly vs f Hw) as (p0 & Hp0).
  assert (Ep : map rp p0 = p) by (apply (poly_of_unique (map rp vs) f); auto; now apply poly_of_map). subst p.
  assert (Bp : Forall (bpt k) p0) by (eapply poly_of_bounded; eauto).
  assert (Cv : convex (map rp p0)) by (destruct Ha as [->| ->]; [now left|now right]).
  unfold counter_clockwise in Ec. apply mapres_ok_inv in Ec. destruct (Forall2_nth_l _ _ _ _ _ Ec Ef) as (f' & Ef' & E1).
  destruct (clear_ccw_face k vs f p0 Hk Bp Hw Hp0 Cv Hcl) as (f2 & poly' & E2 & W2 & _ & P2 & C2 & O2).
  rewrite E1 in E2. apply Ok_inj in E2. subst f2. exists f', poly'. split; auto. split; auto. split; auto. split.
  - destruct O2 as [->| ->], Ha as [->| ->]; auto.
    + exfalso. apply (ccw_one_way (map rp p0)); auto.
    + rewrite map_rev in C2. exfalso. apply (ccw_one_way (map rp p0)); auto.
    + apply map_rev.
  - destruct O2 as [->| ->]; auto. now apply Forall_rev.
Qed.

Theorem float_intersect_faces k g (vs : list (point b64)) faces fill nb cpl (t : tree2d (T:=b64)) :
  (-200 <= k <= 300)%Z -> mesh_ok vs faces fill -> bounded_vertices k vs ->
  CellTree2d_init g vs faces fill nb cpl = Ok t ->
  forall vs_ qfaces qfill ca cb, faces_ok vs_ (map (with_fill qfill) qfaces) -> bounded_vertices k vs_ ->
  columns ca qfaces -> columns cb faces -> (clip_bound cb (Z.of_nat ca) <= 64)%Z ->
  exists rows,
    (forall g' n_threads, (1 <= n_threads)%nat -> CellTree2d_intersect_faces g' n_threads t vs_ qfaces qfill = Ok rows)
    /\ NoDup (map fst rows)
    (* every row is a pair of faces; the area is accurate for a pair that is clear *)
    /\ (forall i j A, In ((i, j), A) rows -> nltb (nofZ 0) A = true
          /\ (exists a b, face_poly (map rp vs_) qfaces qfill i a /\ face_poly (map rp vs) faces fill j b)
          /\ forall a b W d, ccw_poly (map rp vs_) qfaces qfill i a -> ccw_poly (map rp vs) faces fill j b -> clear_pair k W d a b ->
               is_finite A = true /\ 0 < B2R A
               /\ exists A', area_of (fun p => hull a p /\ hull b p) A' /\ Rabs (B2R A - A') <= INR (length b) * (bpow radix2 (k - 36) * W))
    (* a clear pair with a common diamond and a larger area than the error has a row *)
    /\ (forall i j a b W d c r A', ccw_poly (map rp vs_) qfaces qfill i a -> ccw_poly (map rp vs) faces fill j b -> clear_pair k W d a b ->
          7 * bpow radix2 (k - 53) <= r -> (forall p, diamond r c p -> hull a p /\ hull b p) ->
          area_of (fun p => hull a p /\ hull b p) A' -> INR (length b) * (bpow radix2 (k - 36) * W) < A' ->
          exists A, In ((i, j), A) rows).
Proof.
  intros Hk Hm HB E vs_ qf0 qfill ca cb Hq HBq Cca Ccb HCB. set (qf := map (with_fill qfill) qf0) in *.
  destruct (locate_faces_result _ _ _ _ _ _ _ Hm E vs_ qf Hq) as (pairs & qf' & Ecc & Hr & Hnd & Hin).
  pose proof (init_built _ _ _ _ _ _ _ Hm E) as Hb. pose proof (bt_vertices _ _ _ _ _ Hb) as Evs.
  pose proof (init_ccw_float _ _ _ _ _ _ _ Hm E) as Hcc.
  destruct (Zb_exact 0 ltac:(cbv; discriminate)) as (F0 & E0).
  pose proof (bpow_gt_0 radix2 (k - 53)) as Pm.
  (* the area of a pair *)
  assert (HOne : forall i j fa fb a b g', (0 <= i)%Z -> (0 <= j)%Z -> nth_error qf' (Z.to_nat i) = Some fa -> nth_error (elements (celltree_data t)) (Z.to_nat j) = Some fb ->
     poly_of vs_ fa a -> poly_of vs fb b ->
     area_of_intersection_one g' vs_ vs qf' (elements (celltree_data t)) (i, j) = polygon_polygon_clip_area g' a b).
  { intros i j fa fb a b g' H0 H1 Ea Eb Pa Pb.
    destruct (ccw_columns _ _ _ _ (fo_faces _ _ Hq) Ecc _ _ Ea) as (Wa & _).
    destruct (ccw_columns _ _ _ _ (mo_faces _ _ _ Hm) Hcc _ _ Eb) as (Wb & _).
    unfold area_of_intersection_one. cbn [fst snd].
    rewrite (aget_pos _ _ _ H0 Ea), (aget_pos _ _ _ H1 Eb). cbn [bind].
    rewrite (copy_vertices_ok g' _ _ _ Wa Pa), (copy_vertices_ok g' _ _ _ Wb Pb). reflexivity. }
  assert (Some_ : forall ij, In ij pairs -> exists A, forall g', area_of_intersection_one g' vs_ vs qf' (elements (celltree_data t)) ij = Ok A).
  { intros (i, j) Hij. apply Hin in Hij as (fa & fb & a & b & ba & bb & H0 & H1 & Ea & Eb & Pa & Pb & _).
    destruct (ccw_columns _ _ _ _ (fo_faces _ _ Hq) Ecc _ _ Ea) as (Wa & ra & Ia & La).
    destruct (ccw_columns _ _ _ _ (mo_faces _ _ _ Hm) Hcc _ _ Eb) as (Wb & rb & Ib & Lb).
    pose proof (F2_length _ _ _ Pa) as La'. pose proof (F2_length _ _ _ Pb) as Lb'. destruct Wa as (Wa & _), Wb as (Wb & _).
    unfold columns in Cca, Ccb. rewrite Forall_forall in Cca, Ccb. specialize (Cca _ Ia). specialize (Ccb _ Ib). cbn beta in Cca, Ccb.
    assert (HCB' : (clip_bound (length b) (zlen a) <= 64)%Z).
    { assert (clip_bound (length b) (zlen a) <= clip_bound (length b) (Z.of_nat ca))%Z by (apply clip_bound_mono; unfold zlen; lia).
      assert (clip_bound (length b) (Z.of_nat ca) <= clip_bound cb (Z.of_nat ca))%Z; [|lia].
      assert (HL : (length b <= cb)%nat) by lia. clear - HL. revert HL. generalize (length b) as m.
      assert (0 <= Z.of_nat ca)%Z by lia. revert H. generalize (Z.of_nat ca) as z. induction cb as [|cb IH]; intros z Hz [|m] HL; try lia.
      - apply clip_bound_grows. lia.
      - cbn [clip_bound]. apply IH; [apply Z.div_pos; lia|lia]. }
    destruct (clip_area_any g a b) as (A & EA); [lia|lia|exact HCB'|].
    exists A. intros g'. rewrite (HOne i j fa fb a b g'); auto. rewrite (clip_area_any_garbage g' g). exact EA. }
  (* the stored polygons of a clear pair *)
  assert (SQ : forall i a, ccw_poly (map rp vs_) qf0 qfill i a -> convex_ccw a /\ exists fa a0, (0 <= i)%Z /\ nth_error qf' (Z.to_nat i) = Some fa
     /\ wf_face (length vs_) fa /\ poly_of vs_ fa a0 /\ map rp a0 = a /\ Forall (bpt k) a0).
  { intros i a (p & (f & H0 & Ef & Pf) & Hcl & Ha & Ca). split; auto.
    destruct (ccw_stored k vs_ qf qf' (Z.to_nat i) f p a ltac:(lia) (fo_faces _ _ Hq) Ecc HBq Ef Pf Hcl Ha Ca) as (fa & a0 & R).
    exists fa, a0. split; auto. }
  assert (ST : forall j b, ccw_poly (map rp vs) faces fill j b -> convex_ccw b /\ exists fb b0, (0 <= j)%Z /\ nth_error (elements (celltree_data t)) (Z.to_nat j) = Some fb
     /\ wf_face (length vs) fb /\ poly_of vs fb b0 /\ map rp b0 = b /\ Forall (bpt k) b0).
  { intros j b (p & (f & H0 & Ef & Pf) & Hcl & Ha & Ca). split; auto.
    destruct (ccw_stored k vs _ _ (Z.to_nat j) f p b ltac:(lia) (mo_faces _ _ _ Hm) Hcc HB Ef Pf Hcl Ha Ca) as (fb & b0 & R).
    exists fb, b0. split; auto. }
  (* a clear pair *)
  assert (CP : forall i j a b W d, ccw_poly (map rp vs_) qf0 qfill i a -> ccw_poly (map rp vs) faces fill j b -> clear_pair k W d a b ->
     exists A, (forall g', area_of_intersection_one g' vs_ vs qf' (elements (celltree_data t)) (i, j) = Ok A) /\ is_finite A = true
       /\ exists A', area_of (fun p => hull a p /\ hull b p) A' /\ Rabs (B2R A - A') <= INR (length b) * (bpow radix2 (k - 36) * W)).
  { intros i j a b W d Ha Hbb (HW & HS & HSd & Pd & Hdd & HC).
    destruct (SQ i a Ha) as (Ca & fa & a0 & H0 & Ea & Wa & Pa & Ra & Ba). destruct (ST j b Hbb) as (Cb & fb & b0 & H1 & Eb & Wb & Pb & Rb & Bb).
    subst a b. pose proof (F2_length _ _ _ Pa) as La'. pose proof (F2_length _ _ _ Pb) as Lb'.
    assert (L32 : (length a0 + length b0 <= 64)%nat).
    { pose proof (poly_len (map rp vs_) fa (map rp a0)) as L1. pose proof (poly_len (map rp vs) fb (map rp b0)) as L2. rewrite !map_length in L1, L2.
      specialize (L1 Wa (poly_of_map _ _ _ Pa)). specialize (L2 Wb (poly_of_map _ _ _ Pb)). lia. }
    destruct (float_clip_clear g a0 b0 k W d Hk HW Ba Bb HS Ca Cb L32 ltac:(intros u v Huv; apply HSd; now right) Pd Hdd HC) as (A & EA & FA & A' & HA & HE).
    exists A. split; [|split; auto].
    - intros g'. rewrite (HOne i j fa fb a0 b0 g'); auto. rewrite (clip_area_any_garbage g' g). exact EA.
    - exists A'. split; auto. now rewrite map_length. }
  set (fA := fun ij => match area_of_intersection_one g vs_ vs qf' (elements (celltree_data t)) ij with Ok A => A | Err _ => nofZ 0 end).
  assert (EF : forall i j A, (forall g', area_of_intersection_one g' vs_ vs qf' (elements (celltree_data t)) (i, j) = Ok A) -> fA (i, j) = A).
  { intros i j A HH. unfold fA. now rewrite HH. }
  assert (POS : forall A : b64, is_finite A = true -> (nltb (nofZ 0) A = true <-> 0 < B2R A)).
  { intros A FA. rewrite nltb_B by (first [exact FA|exact F0]). change (nofZ 0 : b64) with (Zb 0). rewrite E0. apply Rltb_iff. }
  exists (map (fun ij => (ij, fA ij)) (filter (fun ij => nltb (nofZ 0) (fA ij)) pairs)). split; [|split; [|split]].
  - intros g' n Hn. unfold CellTree2d_intersect_faces. rewrite (cast_faces_wf vs_) by apply (fo_faces _ _ Hq). cbn [bind].
    fold qf. rewrite (Hr g' n Hn). cbn [bind]. unfold area_of_intersection. rewrite Evs. rewrite (Base.mapres_ok _ fA).
    + cbn [bind]. f_equal. apply filter_sel_any.
    + intros (i, j) Hij. destruct (Some_ (i, j) Hij) as (A & EA). rewrite EA. f_equal. symmetry. now apply EF.
  - rewrite map_map. cbn [fst]. rewrite map_id. now apply NoDup_filter.
  - intros i j A HIn. apply in_map_iff in HIn as (ij & Eij & Hf). injection Eij as -> <-. apply filter_In in Hf as (Hij & Hp).
    split; auto. split.
    + apply Hin in Hij as (fa & fb & a & b & ba & bb & H0 & H1 & Ea & Eb & Pa & Pb & _).
      destruct (stored_back_float _ _ _ _ _ _ _ Hm Hb H1 Eb) as (b0 & FB).
      destruct (counter_clockwise_ok vs_ qf (fo_faces _ _ Hq)) as (qf2 & Ecc2 & _ & Hsame). rewrite Ecc in Ecc2. apply Ok_inj in Ecc2. subst qf2.
      destruct (Forall2_nth_r _ _ _ _ _ Hsame Ea) as (f & Ef & _).
      pose proof (fo_faces _ _ Hq) as Hw. rewrite Forall_forall in Hw.
      destruct (wf_poly vs_ f (Hw f (nth_error_In _ _ Ef))) as (p0 & Hp0). exists (map rp p0), b0. split; auto.
      exists f. split; auto. split; auto. now apply poly_of_map.
    + intros a b W d Ha Hbb Hcl. destruct (CP i j a b W d Ha Hbb Hcl) as (A & EA & FA & A' & HA & HE). rewrite (EF _ _ _ EA) in *.
      split; auto. split; [now apply POS|]. eauto.
  - intros i j a b W d c r A' Ha Hbb Hcl Hrr HD HA HG.
    destruct (CP i j a b W d Ha Hbb Hcl) as (A & EA & FA & A2 & HA2 & HE). assert (A2 = A') by apply (area_of_unique _ _ _ HA2 HA). subst A2.
    exists A. apply in_map_iff. exists (i, j). rewrite (EF _ _ _ EA). split; auto. apply filter_In. rewrite (EF _ _ _ EA). split.
    + destruct (SQ i a Ha) as (Ca & fa & a0 & H0 & Ea & Wa & Pa & Ra & Ba). destruct (ST j b Hbb) as (Cb & fb & b0 & H1 & Eb & Wb & Pb & Rb & Bb).
      subst a b. apply Hin.
      destruct (counter_clockwise_ok vs_ qf (fo_faces _ _ Hq)) as (qf2 & Ecc2 & Wq & _). rewrite Ecc in Ecc2. apply Ok_inj in Ecc2. subst qf2.
      destruct (build_face_bboxes_ok vs_ qf' (fo_vertices _ _ Hq) Wq) as (bbs & _ & _ & Hboxes).
      destruct (Forall2_nth_l _ _ _ _ _ Hboxes Ea) as (ba & _ & a' & Pa' & Ta). rewrite (poly_of_fun _ _ _ _ Pa' Pa) in Ta.
      destruct (Forall2_nth_l _ _ _ _ _ (mt_boxes _ (bt_mesh _ _ _ _ _ Hb)) Eb) as (bb & Ebb & b' & Pb' & Tb).
      rewrite Evs in Pb'. rewrite (poly_of_fun _ _ _ _ Pb' Pb) in Tb.
      destruct Hcl as (_ & _ & HSd & _).
      assert (PL : forall u v, In (u, v) (poly_edges (map rp a0)) \/ In (u, v) (poly_edges (map rp b0)) -> plain_side u v).
      { intros u v Huv. right. change (extent2 u v) with (side_size u v). eapply Rle_trans; [|apply (HSd u v Huv)]. apply bpow_le. lia. }
      exists fa, fb, a0, b0, ba, bb. repeat (split; [assumption|]).
      split; [apply (boxes_meet k a0 b0 ba bb c r); auto; lra|]. split.
      * apply (axes_diamond k a0 b0 c r); auto; lia.
      * apply (axes_diamond k b0 a0 c r); auto; [lia|]. intros p Hp. destruct (HD p Hp). now split.
    + apply POS; auto. apply Rabs_le_iff in HE.
      assert (0 <= INR (length b) * (bpow radix2 (k - 36) * W)).
      { apply Rmult_le_pos; [apply pos_INR|]. apply Rmult_le_pos; [apply bpow_ge_0|]. destruct Hcl as (HW & _). pose proof (bpow_ge_0 radix2 (k - 42)). lra. }
      lra.
Qed.
