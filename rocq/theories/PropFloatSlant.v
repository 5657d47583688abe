(** C59: areas of intersection in binary64 for faces with sides in any direction. *)
From Coq Require Import Reals Lra Psatz QArith Qreals.
From Flocq Require Import IEEE754.BinarySingleNaN Core.
From Verif Require Import RBase NumB64 NumSub NumRoom FBase MUtils MGeometry MAlgorithms MCreation MQuery MCelltree
  SpecTree SpecQuery SpecApi SpecPoly SpecMesh SpecArea SpecClear PMesh PInit PBuild PClip GTriangle GConvex GHull GArea GClip GClipArea GClearCheck
  FBuild FMesh FPoint FLocate FOrient FArea FSat FTurn FOverlap FCut FSlantClip FSlantFaces FSlantBoxes Examples PFaces PropFaces PropArea PropClip PropEdges PropPoints PropFloat PropFloatPoints PropFloatFaces.
Open Scope R_scope.

(** ** The area function *)
Theorem C59_float_clip_clear g (a b : list (point b64)) k W d :
  (-200 <= k <= 300)%Z -> bpow radix2 (k - 42) <= W <= bpow radix2 (k + 1) ->
  Forall (bpt k) a -> Forall (bpt k) b -> spanning W (map rp a ++ map rp b) ->
  convex_ccw (map rp a) -> convex_ccw (map rp b) -> (length a + length b <= 64)%nat ->
  (forall u v, In (u, v) (poly_edges (map rp b)) -> bpow radix2 (-250) <= side_size u v) ->
  0 < d -> bpow radix2 (k - 41) * W <= d * d -> clear_corners d (map rp a) (map rp b) ->
  exists A, polygon_polygon_clip_area g a b = Ok A /\ is_finite A = true
    /\ exists A', area_of (fun p => hull (map rp a) p /\ hull (map rp b) p) A'
        /\ Rabs (B2R A - A') <= INR (length b) * (bpow radix2 (k - 36) * W).
Proof. exact (float_clip_clear g a b k W d). Qed.

(** ** CellTree2d.intersect_faces *)
Theorem C59_float_intersect_faces k g (vs : list (point b64)) faces fill nb cpl (t : tree2d (T:=b64)) :
  (-200 <= k <= 300)%Z -> mesh_ok vs faces fill -> bounded_vertices k vs ->
  CellTree2d_init g vs faces fill nb cpl = Ok t ->
  forall vs_ qfaces qfill ca cb, faces_ok vs_ (map (with_fill qfill) qfaces) -> bounded_vertices k vs_ ->
  columns ca qfaces -> columns cb faces -> (clip_bound cb (Z.of_nat ca) <= 64)%Z ->
  exists rows,
    (forall g' n_threads, (1 <= n_threads)%nat -> CellTree2d_intersect_faces g' n_threads t vs_ qfaces qfill = Ok rows)
    /\ NoDup (map fst rows)
    (* every row is a pair of faces; the area is accurate for a pair that is clear *)
    /\ (forall i j A, In ((i, j), A) rows -> nltb (nofZ 0) A = true
          /\ (exists a b, face_poly (map rp vs_) qfaces qfill i a /\ face_poly (map rp vs) faces fill j b)
          /\ forall a b W d, ccw_poly (map rp vs_) qfaces qfill i a -> ccw_poly (map rp vs) faces fill j b -> clear_pair k W d a b ->
               is_finite A = true /\ 0 < B2R A
               /\ exists A', area_of (fun p => hull a p /\ hull b p) A' /\ Rabs (B2R A - A') <= INR (length b) * (bpow radix2 (k - 36) * W))
    (* a clear pair with a common diamond and a larger area than the error has a row *)
    /\ (forall i j a b W d c r A', ccw_poly (map rp vs_) qfaces qfill i a -> ccw_poly (map rp vs) faces fill j b -> clear_pair k W d a b ->
          7 * bpow radix2 (k - 53) <= r -> (forall p, diamond r c p -> hull a p /\ hull b p) ->
          area_of (fun p => hull a p /\ hull b p) A' -> INR (length b) * (bpow radix2 (k - 36) * W) < A' ->
          exists A, In ((i, j), A) rows).
Proof. exact (float_intersect_faces k g vs faces fill nb cpl t). Qed.

(** ** CellTree2d.intersect_boxes *)
Theorem C59_float_intersect_boxes k g (vs : list (point b64)) faces fill nb cpl (t : tree2d (T:=b64)) :
  (-200 <= k <= 300)%Z -> mesh_ok vs faces fill -> bounded_vertices k vs -> columns 6 faces ->
  CellTree2d_init g vs faces fill nb cpl = Ok t ->
  forall boxes, Forall (float_box k) boxes ->
  exists rows,
    (forall g' n_threads, (1 <= n_threads)%nat -> CellTree2d_intersect_boxes g' n_threads t boxes = Ok rows)
    /\ NoDup (map fst rows)
    (* every row is a box and a face; the area is accurate for a pair that is clear *)
    /\ (forall i j A, In ((i, j), A) rows -> nltb (nofZ 0) A = true /\ exists a, (0 <= i)%Z /\ nth_error boxes (Z.to_nat i) = Some a
          /\ (exists b, face_poly (map rp vs) faces fill j b)
          /\ forall b W d, ccw_poly (map rp vs) faces fill j b -> clear_pair k W d (copy_box_vertices (rbox a)) b ->
               is_finite A = true /\ 0 < B2R A
               /\ exists A', area_of (fun p => in_box (rbox a) p /\ hull b p) A' /\ Rabs (B2R A - A') <= INR (length b) * (bpow radix2 (k - 36) * W))
    (* a clear pair with a larger area than the error has a row *)
    /\ (forall i j a b W d A', (0 <= i)%Z -> nth_error boxes (Z.to_nat i) = Some a -> ccw_poly (map rp vs) faces fill j b ->
          clear_pair k W d (copy_box_vertices (rbox a)) b ->
          area_of (fun p => in_box (rbox a) p /\ hull b p) A' -> INR (length b) * (bpow radix2 (k - 36) * W) < A' ->
          exists A, In ((i, j), A) rows).
Proof. exact (float_boxes_clear k g vs faces fill nb cpl t). Qed.

(** ** A concrete case: a triangle over two quadrilaterals, no side along an axis *)
Definition zq (p : Z * Z) : qpt := (inject_Z (fst p), inject_Z (snd p)).
Lemma zq_R l : map toR (map zq l) = map ptZ l.
Proof.
  rewrite map_map. apply map_ext. intros (x, y). unfold toR, zq, ptZ. cbn [fst snd]. f_equal; unfold Q2R, inject_Z; cbn [Qnum Qden nofZ NumR]; field.
Qed.

Definition quad_pts : list (Z * Z) := [(0, 0); (8, 1); (9, 9); (1, 8); (17, 0); (18, 10)]%Z.
Definition quad_faces : list (list Z) := [[0; 1; 2; 3]; [1; 4; 5; 2]]%Z.
Definition quad_0 : list (Z * Z) := [(0, 0); (8, 1); (9, 9); (1, 8)]%Z.
Definition quad_1 : list (Z * Z) := [(8, 1); (17, 0); (18, 10); (9, 9)]%Z.
Definition tri_pts : list (Z * Z) := [(3, 2); (15, 3); (7, 12)]%Z.
Definition box_pts : list (Z * Z) := [(2, 3); (13, 3); (13, 7); (2, 7)]%Z.

Lemma quad_mesh : mesh_ok (map (ptZ (T:=b64)) quad_pts) quad_faces (-1).
Proof. apply zmesh_ok; [vm_compute; reflexivity|discriminate|]. repeat constructor; simpl; lia. Qed.
Lemma quad_0_convex : convex_ccw (map ptZ quad_0). Proof. unfold quad_0. cbn [map]. convex_check. Qed.
Lemma quad_1_convex : convex_ccw (map ptZ quad_1). Proof. unfold quad_1. cbn [map]. convex_check. Qed.
Lemma tri_convex : convex_ccw (map ptZ tri_pts). Proof. unfold tri_pts. cbn [map]. convex_check. Qed.
Lemma box_convex : convex_ccw (map ptZ box_pts). Proof. unfold box_pts. cbn [map]. convex_check. Qed.

Ltac clear_faces := 
  assert (Hu : 9 * (uro * (32 * 32)) < 1 / 2)
  by (unfold uro; change 32 with (bpow radix2 5); rewrite <- !bpow_plus; apply Rle_lt_trans with (9 * bpow radix2 (-10));
      [apply Rmult_le_compat_l; [lra|]; apply bpow_le; cbv; discriminate|change (bpow radix2 (-10)) with (/ 1024); lra]);
  intros a b c H1 H2; cbn in H1, H2;
    repeat destruct H1 as [H1|H1]; try contradiction; inversion H1; subst a b;
    repeat destruct H2 as [H2|H2]; try contradiction; injection H2; intros; subst;
    try (exfalso; lra);
    (exists 32; split; [change 32 with (bpow radix2 5); apply bpow_le; lia|split;
      [intros p p' Hp Hp'; cbn in Hp, Hp'; repeat destruct Hp as [<-|Hp]; try contradiction; repeat destruct Hp' as [<-|Hp']; try contradiction;
        cbn [px py ptZ fst snd nofZ NumR]; split; apply Rabs_le_iff; lra
      |eapply Rlt_le_trans; [exact Hu|]; unfold orient; cbn [px py ptZ fst snd nofZ NumR]; unfold Rabs; destruct Rcase_abs; lra]]).
Lemma quad_0_clear : clear_face (map ptZ quad_0). Proof. unfold quad_0. cbn [map]. clear_faces. Qed.
Lemma quad_1_clear : clear_face (map ptZ quad_1). Proof. unfold quad_1. cbn [map]. clear_faces. Qed.
Lemma tri_clear : clear_face (map ptZ tri_pts). Proof. unfold tri_pts. cbn [map]. clear_faces. Qed.

(** every corner stays at least 1/100 away from the side it is cut by *)
Lemma quads_pair a b : a = tri_pts \/ a = box_pts -> b = quad_0 \/ b = quad_1 -> clear_pair 5 32 (1 / 100) (map ptZ a) (map ptZ b).
Proof.
  intros Ha Hb.
  split. { change 32 with (bpow radix2 5). split; apply bpow_le; lia. }
  split. { intros p q Hp Hq. unfold tri_pts, box_pts, quad_0, quad_1 in *. destruct Ha as [-> | ->], Hb as [-> | ->]; cbn in Hp, Hq;
    repeat destruct Hp as [<-|Hp]; try contradiction; repeat destruct Hq as [<-|Hq]; try contradiction;
    cbn [px py ptZ fst snd nofZ NumR]; split; apply Rabs_le_iff; lra. }
  split. { intros u v He. assert (H1 : bpow radix2 (-250) <= 1) by (change 1 with (bpow radix2 0); apply bpow_le; lia).
    unfold tri_pts, box_pts, quad_0, quad_1 in *. unfold side_size.
    destruct Ha as [-> | ->], Hb as [-> | ->]; cbn in He; destruct He as [He|He];
    repeat destruct He as [He|He]; try contradiction; inversion He; subst u v; (eapply Rle_trans; [exact H1|]);
      cbn [px py ptZ fst snd nofZ NumR];
      first [eapply Rle_trans; [|apply Rmax_l]; unfold Rabs; destruct Rcase_abs; lra|eapply Rle_trans; [|apply Rmax_r]; unfold Rabs; destruct Rcase_abs; lra]. }
  split; [lra|]. split.
  { change (5 - 41)%Z with (-36)%Z. change 32 with (bpow radix2 5). rewrite <- bpow_plus. change (-36 + 5)%Z with (-31)%Z.
    apply Rle_trans with (bpow radix2 (-20)); [apply bpow_le; lia|]. change (bpow radix2 (-20)) with (/ IZR (2 ^ 20)). change (2 ^ 20)%Z with 1048576%Z. lra. }
  assert (G : clear_corners (Q2R (1 # 100)) (map toR (map zq a)) (map toR (map zq b))).
  { apply clear_check; [rewrite zq_R; destruct Ha as [-> | ->]; [exact tri_convex|exact box_convex]|]. destruct Ha as [-> | ->], Hb as [-> | ->]; vm_compute; reflexivity. }
  rewrite !zq_R in G. replace (1 / 100) with (Q2R (1 # 100)) by (unfold Q2R; cbn; lra). exact G.
Qed.

Lemma quads_area a b q : a = tri_pts /\ (b = quad_0 /\ q = (2599 # 95)%Q \/ b = quad_1 /\ q = (204534 # 8455)%Q)
    \/ a = box_pts /\ (b = quad_0 /\ q = 26%Q \/ b = quad_1 /\ q = 18%Q) ->
  area_of (fun p => hull (map ptZ a) p /\ hull (map ptZ b) p) (Q2R q).
Proof.
  intros H.
  assert (Ca : convex_ccw (map ptZ a)) by (destruct H as [(-> & _)|(-> & _)]; [exact tri_convex|exact box_convex]).
  assert (Cb : convex_ccw (map ptZ b)) by (destruct H as [(_ & [(-> & _)|(-> & _)])|(_ & [(-> & _)|(-> & _)])]; first [exact quad_0_convex|exact quad_1_convex]).
  rewrite <- !zq_R. rewrite <- zq_R in Ca, Cb.
  assert (G := area_check (1 # 100) (map zq a) (map zq b) Ca Cb).
  assert (K : Q2R q = Q2R (shoeQ (runQ (chainQ (last (map zq b) (0%Q, 0%Q)) (map zq b)) (map zq a))))
    by (apply Qeq_eqR, Qeq_bool_iff; destruct H as [(-> & [(-> & ->)|(-> & ->)])|(-> & [(-> & ->)|(-> & ->)])]; vm_compute; reflexivity).
  rewrite K. apply G. destruct H as [(-> & [(-> & _)|(-> & _)])|(-> & [(-> & _)|(-> & _)])]; vm_compute; reflexivity.
Qed.

Lemma quads_diamond b c p : b = quad_0 /\ c = Pt 6 5 \/ b = quad_1 /\ c = Pt 11 5 ->
  diamond (1 / 2) c p -> hull (map ptZ tri_pts) p /\ hull (map ptZ b) p.
Proof.
  intros H D. apply diamond_lin in D. split; apply in_poly_hull.
  1: exact tri_convex. 2: destruct H as [(-> & _)|(-> & _)]; [exact quad_0_convex|exact quad_1_convex].
  all: destruct H as [(-> & ->)|(-> & ->)]; unfold tri_pts, quad_0, quad_1; intros u v He; cbn in He; repeat destruct He as [He|He]; try contradiction; inversion He; subst u v;
    unfold orient; cbn [px py ptZ fst snd nofZ NumR] in *; lra.
Qed.

(** the area function on the triangle and the second quadrilateral *)
Example C59_clip_example : exists A, polygon_polygon_clip_area g0 (map (ptZ (T:=b64)) tri_pts) (map ptZ quad_1) = Ok A
  /\ Rabs (B2R A - 204534 / 8455) <= / 2 ^ 24.
Proof.
  destruct (quads_pair tri_pts quad_1 (or_introl eq_refl) (or_intror eq_refl)) as (HW & HS & HL & Hd & Hdd & HC).
  destruct (C59_float_clip_clear g0 (map ptZ tri_pts) (map ptZ quad_1) 5 32 (1 / 100)) as (A & EA & _ & A' & HA & HD);
    rewrite ?rp_ptZ by (vm_compute; reflexivity); auto; try lia; try exact tri_convex; try exact quad_1_convex;
    try (apply zbounded; [lia|vm_compute; reflexivity]).
  - cbn. lia.
  - exists A. split; auto. rewrite !rp_ptZ in HA by (vm_compute; reflexivity).
    rewrite (area_of_unique _ _ _ HA (quads_area tri_pts quad_1 (204534 # 8455)%Q ltac:(auto))) in HD.
    change (Q2R (204534 # 8455)) with (204534 / 8455) in HD.
    replace (/ 2 ^ 24) with (INR 4 * (bpow radix2 (5 - 36) * 32)); [exact HD|].
    change (5 - 36)%Z with (-31)%Z. change (bpow radix2 (-31)) with (/ IZR (2 ^ 31)). change (2 ^ 31)%Z with 2147483648%Z. cbn [INR]. lra.
Qed.

(** both quadrilaterals are reported with their areas, to within 2^-24 *)
Example C59_example : exists t rows, CellTree2d_init (T:=b64) g0 (map ptZ quad_pts) quad_faces (-1) 4 2 = Ok t
  /\ (forall g' n, (1 <= n)%nat -> CellTree2d_intersect_faces g' n t (map ptZ tri_pts) [[2; 1; 0]]%Z (-1) = Ok rows)
  /\ (exists A, In ((0, 0)%Z, A) rows /\ Rabs (B2R A - 2599 / 95) <= / 2 ^ 24)
  /\ (exists A, In ((0, 1)%Z, A) rows /\ Rabs (B2R A - 204534 / 8455) <= / 2 ^ 24).
Proof.
  assert (HI : match CellTree2d_init (T:=b64) g0 (map ptZ quad_pts) quad_faces (-1) 4 2 with Ok _ => true | Err _ => false end = true)
    by (vm_compute; reflexivity).
  destruct (CellTree2d_init (T:=b64) g0 (map ptZ quad_pts) quad_faces (-1) 4 2) as [t|e] eqn:E; [|discriminate HI]. clear HI.
  assert (HT : faces_ok (map (ptZ (T:=b64)) tri_pts) (map (with_fill (-1)) [[2; 1; 0]]%Z)).
  { constructor; [|repeat constructor; simpl; lia]. rewrite Forall_forall. intros p [<-|[<-|[<-|[]]]]; split; apply Zb_exact; cbn; lia. }
  destruct (C59_float_intersect_faces 5 g0 (map ptZ quad_pts) quad_faces (-1) 4 2 t ltac:(lia) quad_mesh ltac:(apply zbounded; [lia|vm_compute; reflexivity]) E
    (map ptZ tri_pts) [[2; 1; 0]]%Z (-1)%Z 3%nat 4%nat HT ltac:(apply zbounded; [lia|vm_compute; reflexivity])
    ltac:(repeat constructor; simpl; lia) ltac:(repeat constructor; simpl; lia) ltac:(vm_compute; discriminate))
    as (rows & HR & _ & HA & HB).
  rewrite !rp_ptZ in HA, HB by (vm_compute; reflexivity).
  exists t, rows. split; auto. split; auto.
  assert (PT : ccw_poly (map ptZ tri_pts) [[2; 1; 0]]%Z (-1) 0 (map ptZ tri_pts)).
  { exists (rev (map ptZ tri_pts)). split; [exists [2; 1; 0]%Z; split; [lia|split; [reflexivity|]]; unfold poly_of; cbn; repeat constructor; auto; lia|].
    split; [|split; [right; now rewrite rev_involutive|exact tri_convex]].
    unfold tri_pts. cbn [map rev app]. clear_faces. }
  assert (PQ : forall b j, b = quad_0 /\ j = 0%Z \/ b = quad_1 /\ j = 1%Z -> ccw_poly (map ptZ quad_pts) quad_faces (-1) j (map ptZ b)).
  { intros b j H. exists (map ptZ b). split; [|split; [|split; [now left|]]].
    - destruct H as [(-> & ->)|(-> & ->)]; eexists; (split; [lia|split; [reflexivity|]]); unfold poly_of; cbn; repeat constructor; auto; lia.
    - destruct H as [(-> & _)|(-> & _)]; [exact quad_0_clear|exact quad_1_clear].
    - destruct H as [(-> & _)|(-> & _)]; [exact quad_0_convex|exact quad_1_convex]. }
  assert (Err : INR 4 * (bpow radix2 (5 - 36) * 32) = / 2 ^ 24).
  { change (5 - 36)%Z with (-31)%Z. change (bpow radix2 (-31)) with (/ IZR (2 ^ 31)). change (2 ^ 31)%Z with 2147483648%Z. cbn [INR]. lra. }
  assert (Main : forall b j c q, b = quad_0 /\ j = 0%Z /\ c = Pt 6 5 /\ q = (2599 # 95)%Q \/ b = quad_1 /\ j = 1%Z /\ c = Pt 11 5 /\ q = (204534 # 8455)%Q ->
    exists A, In ((0%Z, j), A) rows /\ Rabs (B2R A - Q2R q) <= / 2 ^ 24).
  { intros b j c q H.
    assert (Hb : b = quad_0 \/ b = quad_1) by (destruct H as [(-> & _)|(-> & _)]; auto).
    assert (Hc := fun p => quads_diamond b c p ltac:(destruct H as [(-> & _ & -> & _)|(-> & _ & -> & _)]; auto)).
    assert (Hq := quads_area tri_pts b q ltac:(destruct H as [(-> & _ & _ & ->)|(-> & _ & _ & ->)]; auto)).
    assert (Hj := PQ b j ltac:(destruct H as [(-> & -> & _)|(-> & -> & _)]; auto)).
    assert (L4 : length (map (ptZ (T:=R)) b) = 4%nat) by (destruct Hb as [-> | ->]; reflexivity).
    assert (Q1 : 1 < Q2R q) by (destruct H as [(_ & _ & _ & ->)|(_ & _ & _ & ->)]; unfold Q2R; cbn; lra).
    destruct (HB 0%Z j (map ptZ tri_pts) (map ptZ b) 32 (1 / 100) c (1 / 2) (Q2R q) PT Hj (quads_pair tri_pts b (or_introl eq_refl) Hb)) as (A & HIn).
    - change (5 - 53)%Z with (-48)%Z. apply Rle_trans with (7 * bpow radix2 (-10)); [apply Rmult_le_compat_l; [lra|apply bpow_le; lia]|].
      change (bpow radix2 (-10)) with (/ 1024). lra.
    - exact Hc.
    - exact Hq.
    - rewrite L4, Err. lra.
    - exists A. split; auto. destruct (HA _ _ _ HIn) as (_ & _ & G).
      destruct (G _ _ _ _ PT Hj (quads_pair tri_pts b (or_introl eq_refl) Hb)) as (_ & _ & A' & EA & Hd). rewrite (area_of_unique _ _ _ EA Hq) in Hd. now rewrite L4, Err in Hd. }
  split.
  - destruct (Main quad_0 0%Z (Pt 6 5) (2599 # 95)%Q) as (A & H1 & H2); [auto|]. exists A. split; auto.
  - destruct (Main quad_1 1%Z (Pt 11 5) (204534 # 8455)%Q) as (A & H1 & H2); [auto|]. exists A. split; auto.
Qed.

(** the box [2, 13] x [3, 7] over the same mesh *)
Example C59_boxes_example : exists t rows, CellTree2d_init (T:=b64) g0 (map ptZ quad_pts) quad_faces (-1) 4 2 = Ok t
  /\ (forall g' n, (1 <= n)%nat -> CellTree2d_intersect_boxes g' n t [Box (Zb 2) (Zb 13) (Zb 3) (Zb 7)] = Ok rows)
  /\ (exists A, In ((0, 0)%Z, A) rows /\ Rabs (B2R A - 26) <= / 2 ^ 24)
  /\ (exists A, In ((0, 1)%Z, A) rows /\ Rabs (B2R A - 18) <= / 2 ^ 24).
Proof.
  assert (HI : match CellTree2d_init (T:=b64) g0 (map ptZ quad_pts) quad_faces (-1) 4 2 with Ok _ => true | Err _ => false end = true)
    by (vm_compute; reflexivity).
  destruct (CellTree2d_init (T:=b64) g0 (map ptZ quad_pts) quad_faces (-1) 4 2) as [t|e] eqn:E; [|discriminate HI]. clear HI.
  set (K := Box (Zb 2) (Zb 13) (Zb 3) (Zb 7)).
  assert (VZ : forall n, (Z.abs n <= 32)%Z -> B2R (Zb n) = IZR n) by (intros; apply Zb_exact; lia).
  assert (EK : rbox K = Box 2 13 3 7) by (unfold rbox, K; cbn [xmin xmax ymin ymax]; rewrite !VZ by lia; reflexivity).
  assert (EP : copy_box_vertices (rbox K) = map ptZ box_pts) by (rewrite EK; reflexivity).
  assert (Pk : proper_box (rbox K)) by (rewrite EK; split; cbn [xmin xmax ymin ymax]; lra).
  assert (FB : Forall (float_box 5) [K]).
  { constructor; [|constructor]. assert (BZ : forall n, (Z.abs n <= 32)%Z -> NumRoom.bounded 5 (Zb n)).
    { intros n Hn. split; [apply Zb_exact; lia|]. rewrite VZ by lia. change (bpow radix2 5) with 32. rewrite <- abs_IZR. now apply IZR_le. }
    split; [apply BZ; lia|]. split; [apply BZ; lia|]. split; [apply BZ; lia|]. split; [apply BZ; lia|exact Pk]. }
  destruct (C59_float_intersect_boxes 5 g0 (map ptZ quad_pts) quad_faces (-1) 4 2 t ltac:(lia) quad_mesh ltac:(apply zbounded; [lia|vm_compute; reflexivity])
    ltac:(repeat constructor; simpl; lia) E [K] FB) as (rows & HR & _ & HA & HB).
  rewrite !rp_ptZ in HA, HB by (vm_compute; reflexivity).
  exists t, rows. split; auto. split; auto.
  assert (PQ : forall b j, b = quad_0 /\ j = 0%Z \/ b = quad_1 /\ j = 1%Z -> ccw_poly (map ptZ quad_pts) quad_faces (-1) j (map ptZ b)).
  { intros b j H. exists (map ptZ b). split; [|split; [|split; [now left|]]].
    - destruct H as [(-> & ->)|(-> & ->)]; eexists; (split; [lia|split; [reflexivity|]]); unfold poly_of; cbn; repeat constructor; auto; lia.
    - destruct H as [(-> & _)|(-> & _)]; [exact quad_0_clear|exact quad_1_clear].
    - destruct H as [(-> & _)|(-> & _)]; [exact quad_0_convex|exact quad_1_convex]. }
  assert (Err : INR 4 * (bpow radix2 (5 - 36) * 32) = / 2 ^ 24).
  { change (5 - 36)%Z with (-31)%Z. change (bpow radix2 (-31)) with (/ IZR (2 ^ 31)). change (2 ^ 31)%Z with 2147483648%Z. cbn [INR]. lra. }
  assert (Main : forall b j q, b = quad_0 /\ j = 0%Z /\ q = 26%Q \/ b = quad_1 /\ j = 1%Z /\ q = 18%Q ->
    exists A, In ((0%Z, j), A) rows /\ Rabs (B2R A - Q2R q) <= / 2 ^ 24).
  { intros b j q H.
    assert (Hb : b = quad_0 \/ b = quad_1) by (destruct H as [(-> & _)|(-> & _)]; auto).
    assert (Hq := quads_area box_pts b q ltac:(destruct H as [(-> & _ & ->)|(-> & _ & ->)]; auto)).
    assert (Hq' : area_of (fun p => in_box (rbox K) p /\ hull (map ptZ b) p) (Q2R q)).
    { eapply area_of_ext; [|exact Hq]. intros p. cbn beta. rewrite <- EP, (box_poly_hull _ p Pk). reflexivity. }
    assert (Hj := PQ b j ltac:(destruct H as [(-> & -> & _)|(-> & -> & _)]; auto)).
    assert (HP := quads_pair box_pts b (or_intror eq_refl) Hb). rewrite <- EP in HP.
    assert (L4 : length (map (ptZ (T:=R)) b) = 4%nat) by (destruct Hb as [-> | ->]; reflexivity).
    assert (Q1 : 1 < Q2R q) by (destruct H as [(_ & _ & ->)|(_ & _ & ->)]; unfold Q2R; cbn; lra).
    destruct (HB 0%Z j K (map ptZ b) 32 (1 / 100) (Q2R q) ltac:(lia) eq_refl Hj HP Hq') as (A & HIn); [rewrite L4, Err; lra|].
    exists A. split; auto. destruct (HA _ _ _ HIn) as (_ & a & _ & Ea & _ & G). injection Ea as <-.
    destruct (G _ _ _ Hj HP) as (_ & _ & A' & EA & Hd). rewrite (area_of_unique _ _ _ EA Hq') in Hd. now rewrite L4, Err in Hd. }
  split.
  - destruct (Main quad_0 0%Z 26%Q) as (A & H1 & H2); [auto|]. exists A. split; auto. replace 26 with (Q2R 26) by (unfold Q2R; cbn; lra). exact H2.
  - destruct (Main quad_1 1%Z 18%Q) as (A & H1 & H2); [auto|]. exists A. split; auto. replace 18 with (Q2R 18) by (unfold Q2R; cbn; lra). exact H2.
Qed.

Print Assumptions C59_float_clip_clear.
Print Assumptions C59_float_intersect_faces.
Print Assumptions C59_float_intersect_boxes.
