(** The overlap of two polygons and of a box and a face, in binary64. *)
From Coq Require Import Reals Lra Psatz.
From Flocq Require Import IEEE754.BinarySingleNaN Core.
From Verif Require Import RBase NumB64 NumRoom FBase FBuild MUtils MGeometry MAlgorithms MCelltree FPoint FLocate FCut FClip FArea FOrient
  SpecTree SpecQuery SpecApi SpecMesh SpecPoly SpecArea PMesh PInit PBuild PApi PGarbage GTriangle GConvex GHull GArea GClip GClipArea
  GMeasure GClose PClip PClipRun GFaces FMesh PSmall PropFaces PropArea.
Open Scope R_scope.

(** any two of the points differ by at most W in each coordinate *)
Definition spanning (W : R) (l : list pt) : Prop :=
  forall p q, In p l -> In q l -> Rabs (px p - px q) <= W /\ Rabs (py p - py q) <= W.

Lemma least (f : pt -> R) l : l <> [] -> exists p, In p l /\ forall q, In q l -> f p <= f q.
Proof.
  induction l as [|x l IH]; [congruence|]. intros _. destruct l as [|y l].
  - exists x. split; [now left|]. intros q [<-|[]]. lra.
  - destruct (IH ltac:(discriminate)) as (p & Hp & H). destruct (Rle_dec (f x) (f p)).
    + exists x. split; [now left|]. intros q [<-|Hq]; [lra|]. specialize (H q Hq). lra.
    + exists p. split; [now right|]. intros q [<-|Hq]; [lra|auto].
Qed.

Theorem float_clip_area g (a b : list (point b64)) k W :
  (-200 <= k <= 300)%Z -> bpow radix2 (k - 46) <= W <= bpow radix2 (k + 1) ->
  Forall (bpt k) a -> Forall (bpt k) b -> spanning W (map rp a ++ map rp b) ->
  convex_ccw (map rp a) -> (length a <= 12)%nat ->
  convex_ccw (map rp b) -> length b = 4%nat -> (forall u v, In (u, v) (poly_edges (map rp b)) -> axis_side u v) ->
  exists A, polygon_polygon_clip_area g a b = Ok A /\ is_finite A = true
    /\ exists A', area_of (fun p => hull (map rp a) p /\ hull (map rp b) p) A'
        /\ Rabs (B2R A - A') <= bpow radix2 (k - 35) * W.
Proof.
  intros Hk HW Ba Bb HS Ca La Cb Lb HE.
  assert (L3 : (3 <= length a)%nat) by (destruct Ca as (L & _); now rewrite map_length in L).
  set (m := uro * bpow radix2 (k + 1)).
  assert (Em : m = bpow radix2 (k - 52)). { unfold m, uro. rewrite <- bpow_plus. f_equal. lia. }
  assert (Pm : 0 < m) by (rewrite Em; apply bpow_gt_0).
  assert (Hm46 : 64 * m = bpow radix2 (k - 46)). { rewrite Em. change 64 with (bpow radix2 6). rewrite <- bpow_plus. f_equal. lia. }
  assert (Hmk : 1000000 * m <= bpow radix2 k).
  { rewrite Em. apply Rle_trans with (bpow radix2 20 * bpow radix2 (k - 52)).
    - apply Rmult_le_compat_r; [apply bpow_ge_0|]. change (bpow radix2 20) with 1048576. lra.
    - rewrite <- bpow_plus. apply bpow_le. lia. }
  set (all := map rp a ++ map rp b) in *.
  assert (Hall : all <> []) by (unfold all; destruct a; [cbn in L3; lia|discriminate]).
  destruct (least px all Hall) as (pL & IL & HL). destruct (least (fun p => - px p) all Hall) as (pR & IR & HR).
  destruct (least py all Hall) as (pB & IB & HB). destruct (least (fun p => - py p) all Hall) as (pT & IT & HT).
  assert (Bd : forall p, In p all -> Rabs (px p) <= bpow radix2 k /\ Rabs (py p) <= bpow radix2 k).
  { intros p Hp. unfold all in Hp. rewrite Forall_forall in Ba, Bb. apply in_app_or in Hp as [Hp|Hp]; apply in_map_iff in Hp as (x & <- & Hx).
    - destruct (Ba x Hx) as ((_ & B1) & (_ & B2)). auto.
    - destruct (Bb x Hx) as ((_ & B1) & (_ & B2)). auto. }
  assert (FF : forall p, Forall (bpt k) p -> (forall x, In x p -> In (rp x) all) -> Forall (finb (px pL) (px pR) (py pB) (py pT) 0) p).
  { intros l Hl Hin. apply Forall_forall. rewrite Forall_forall in Hl. intros x Hx. destruct (Hl x Hx) as ((F1 & _) & (F2 & _)).
    split; auto. split; auto. specialize (Hin x Hx). pose proof (HL _ Hin). pose proof (HR _ Hin). pose proof (HB _ Hin). pose proof (HT _ Hin).
    cbn beta in *. split; lra. }
  set (work := np_empty (gpt g) CLIP_MAX_N_VERTEX).
  assert (LW : length work = 64%nat) by (unfold work, np_empty; rewrite map_length, seq_length; reflexivity).
  assert (Hb : b <> []) by (destruct b; [discriminate|discriminate]).
  set (r := last b (Pt (nofZ 0) (nofZ 0))).
  assert (Hlast : aget b (zlen b - 1)%Z = Ok r).
  { unfold r. destruct (exists_last Hb) as (l & x & E). rewrite E. rewrite last_last. unfold zlen. rewrite app_length. cbn [length].
    replace (Z.of_nat (length l + 1) - 1)%Z with (Z.of_nat (length l)) by lia. apply aget_nat.
    rewrite nth_error_app2 by lia. now rewrite Nat.sub_diag. }
  assert (Ir : In r b) by (unfold r; destruct (exists_last Hb) as (l & x & E); rewrite E, last_last; apply in_or_app; right; now left).
  assert (ER : rp r = last (map rp b) (Pt 0 0)).
  { unfold r. destruct (exists_last Hb) as (l & x & E). rewrite E, map_app. cbn [map]. now rewrite !last_last. }
  assert (Hrun : polygon_polygon_clip_area g a b = clip_loop r b work (a ++ skipn (length a) work) (zlen a)).
  { unfold polygon_polygon_clip_area, allocate_clip_polygon. fold work.
    unfold zlen at 1. rewrite (copy_firstn a work (length a)) by (auto; lia). cbn [bind]. rewrite firstn_all, Hlast. reflexivity. }
  assert (HCB : (clip_bound (length b) (zlen a) <= 64)%Z).
  { rewrite Lb. eapply Z.le_trans; [apply (clip_bound_mono 4 (zlen a) 12); unfold zlen; lia|]. vm_compute. discriminate. }
  destruct (clip_area_any g a b) as (A & EA); auto; [lia|].
  exists A. split; auto. rewrite Hrun in EA.
  pose proof (HS pR pL IR IL) as (W1 & _). pose proof (HS pT pB IT IB) as (_ & W2). apply Rabs_le_iff in W1, W2.
  pose proof (Bd _ IL) as (BL & _). pose proof (Bd _ IR) as (BR & _). pose proof (Bd _ IB) as (_ & BB). pose proof (Bd _ IT) as (_ & BT).
  apply Rabs_le_iff in BL, BR, BB, BT.
  assert (Ek1 : bpow radix2 (k + 1) = 2 * bpow radix2 k) by (rewrite bpow_plus; change (bpow radix2 1) with 2; ring).
  assert (Ek2 : bpow radix2 (k + 1 + 1) = 4 * bpow radix2 k) by (rewrite !bpow_plus; change (bpow radix2 1) with 2; ring).
  assert (H400 : bpow radix2 (-400) <= bpow radix2 (k - 46)) by (apply bpow_le; lia).
  destruct (clip_loop_float (k + 1) (px pL) (px pR) (py pB) (py pT) (24 * m) (2 * W) ltac:(lia)) with
    (l := b) (r := r) (P := a) (subject := work) (out := a ++ skipn (length a) work) (h := 0) (eta0 := 0) (A := A) as (FA & HA).
  - rewrite Ek1. lra.
  - rewrite Ek1. lra.
  - lra.
  - rewrite Ek2. lra.
  - lra.
  - intros u v Huv. apply HE. unfold poly_edges. now rewrite <- ER.
  - apply FF; [constructor; auto; rewrite Forall_forall in Bb; now apply Bb|].
    intros x Hx. unfold all. apply in_or_app. right. apply in_map. destruct Hx as [<-|Hx]; auto.
  - apply FF; auto. intros x Hx. unfold all. apply in_or_app. left. now apply in_map.
  - lra.
  - rewrite Lb. fold m. cbn [INR]. lra.
  - lia.
  - rewrite firstn_app, Nat.sub_diag, firstn_all. cbn. apply app_nil_r.
  - rewrite app_length, skipn_length. lia.
  - auto.
  - auto.
  - lra.
  - now apply convex_nearly.
  - exact EA.
  - split; auto. exists (area_in (chain (rp r) (map rp b)) (map rp a)). split.
    + assert (Da : dd (map rp a) = map rp a) by (apply dd_id; [apply Ca|destruct Ca; lia]).
      eapply area_of_ext; [|apply (area_in_exact (map rp b) (rp r) (map rp a))].
      * intros p. cbn beta. rewrite Da. rewrite <- (in_poly_hull _ p Ca), <- (in_poly_hull _ p Cb), ER. reflexivity.
      * now rewrite Da.
      * intros u v Huv. rewrite ER in Huv. destruct Cb as (L & N & _). apply (edges_neq (map rp b) u v N); [lia|exact Huv].
    + eapply Rle_trans; [exact HA|]. unfold cost. rewrite Lb. fold m. replace (INR 4) with 4 by (cbn; lra).
      assert (PW : 0 < W) by (pose proof (bpow_gt_0 radix2 (k - 46)); lra).
      assert (PWm : 0 < W * m) by (now apply Rmult_lt_0_compat).
      assert (G : uro * (2 * W * (2 * W)) <= 4 * (W * m)).
      { replace (4 * (W * m)) with (uro * (2 * W * (2 * bpow radix2 (k + 1)))) by (unfold m; ring).
        apply Rmult_le_compat_l; [left; apply uro_pos|]. apply Rmult_le_compat_l; lra. }
      replace (k - 35)%Z with (17 + (k - 52))%Z by lia. rewrite bpow_plus, <- Em. change (bpow radix2 17) with 131072.
      replace (131072 * m * W) with (131072 * (W * m)) by ring.
      replace (2 * W * m) with (2 * (W * m)) by ring. lra.
Qed.

(** every face a rectangle with sides along the axes, in either orientation *)
Definition rect_mesh (vs : list pt) (faces : list (list Z)) (fill : Z) : Prop :=
  forall j poly, face_poly vs faces fill j poly ->
    convex poly /\ length poly = 4%nat /\ forall u v, In (u, v) (poly_edges poly) -> axis_side u v.

Lemma axis_side_sym u v : axis_side u v -> axis_side v u.
Proof.
  unfold axis_side. rewrite (Rabs_minus_sym (px u)), (Rabs_minus_sym (py u)).
  intros [(E1 & E2 & E3)|(E1 & E2 & E3)]; [left|right]; rewrite E1 in *; auto.
Qed.

(** strictly inside the tight box of such a rectangle: inside the rectangle *)
Lemma rect_interior poly (b : box R) p : convex_ccw poly -> (forall u v, In (u, v) (poly_edges poly) -> axis_side u v) -> tight_box poly b ->
  xmin b < px p < xmax b -> ymin b < py p < ymax b -> interior poly p.
Proof.
  intros (_ & _ & HC) HE (_ & T1 & T2 & T3 & T4) Hx Hy u v He. rewrite Exists_exists in *.
  destruct T1 as (q1 & I1 & E1). destruct T2 as (q2 & I2 & E2). destruct T3 as (q3 & I3 & E3). destruct T4 as (q4 & I4 & E4).
  assert (G : forall q, In q poly -> q = u \/ q = v \/ 0 < orient u v q).
  { intros q Iq. destruct (pt_dec q u) as [->|N1]; auto. destruct (pt_dec q v) as [->|N2]; auto. }
  pose proof (bpow_gt_0 radix2 (-250)) as P0.
  destruct (HE u v He) as [(E & L & _)|(E & L & _)].
  - assert (GO : forall q, orient u v q = (px v - px u) * (py q - py u)) by (intros q; unfold orient; rewrite E; ring).
    rewrite GO. destruct (Rle_or_lt 0 (px v - px u)) as [S|S].
    + rewrite Rabs_pos_eq in L by auto. assert (py u <= ymin b).
      { rewrite <- E3. destruct (G q3 I3) as [->|[->|Ho]]; [lra|lra|]. rewrite GO in Ho.
        apply Rnot_lt_le. intros K. pose proof (Rmult_le_pos (px v - px u) (py u - py q3) S ltac:(lra)). lra. }
      apply Rmult_lt_0_compat; lra.
    + rewrite Rabs_left in L by auto. assert (ymax b <= py u).
      { rewrite <- E4. destruct (G q4 I4) as [->|[->|Ho]]; [lra|lra|]. rewrite GO in Ho.
        apply Rnot_lt_le. intros K. pose proof (Rmult_le_pos (- (px v - px u)) (py q4 - py u) ltac:(lra) ltac:(lra)). lra. }
      pose proof (Rmult_lt_0_compat (- (px v - px u)) (py u - py p) ltac:(lra) ltac:(lra)). lra.
  - assert (GO : forall q, orient u v q = - ((py v - py u) * (px q - px u))) by (intros q; unfold orient; rewrite E; ring).
    rewrite GO. destruct (Rle_or_lt 0 (py v - py u)) as [S|S].
    + rewrite Rabs_pos_eq in L by auto. assert (xmax b <= px u).
      { rewrite <- E2. destruct (G q2 I2) as [->|[->|Ho]]; [lra|lra|]. rewrite GO in Ho.
        apply Rnot_lt_le. intros K. pose proof (Rmult_le_pos (py v - py u) (px q2 - px u) S ltac:(lra)). lra. }
      pose proof (Rmult_lt_0_compat (py v - py u) (px u - px p) ltac:(lra) ltac:(lra)). lra.
    + rewrite Rabs_left in L by auto. assert (px u <= xmin b).
      { rewrite <- E1. destruct (G q1 I1) as [->|[->|Ho]]; [lra|lra|]. rewrite GO in Ho.
        apply Rnot_lt_le. intros K. pose proof (Rmult_le_pos (- (py v - py u)) (px u - px q1) ltac:(lra) ltac:(lra)). lra. }
      pose proof (Rmult_lt_0_compat (- (py v - py u)) (px p - px u) ltac:(lra) ltac:(lra)). lra.
Qed.

Lemma box_interior_conv b p : proper_box b -> xmin b < px p < xmax b -> ymin b < py p < ymax b -> interior (copy_box_vertices b) p.
Proof.
  destruct b as [x0 x1 y0 y1]. intros (Hx & Hy) H1 H2 u v He. unfold copy_box_vertices in He. cbn in Hx, Hy, H1, H2, He.
  repeat destruct He as [He|He]; try contradiction; injection He as <- <-; unfold orient; cbn [px py].
  - pose proof (Rmult_lt_0_compat (y1 - y0) (px p - x0) ltac:(lra) ltac:(lra)). lra.
  - pose proof (Rmult_lt_0_compat (x1 - x0) (py p - y0) ltac:(lra) ltac:(lra)). lra.
  - pose proof (Rmult_lt_0_compat (y1 - y0) (x1 - px p) ltac:(lra) ltac:(lra)). lra.
  - pose proof (Rmult_lt_0_compat (x1 - x0) (y1 - py p) ltac:(lra) ltac:(lra)). lra.
Qed.

(** a box with finite corners of the given size, not flat *)
Definition float_box (k : Z) (b : box b64) : Prop :=
  NumRoom.bounded k (xmin b) /\ NumRoom.bounded k (xmax b) /\ NumRoom.bounded k (ymin b) /\ NumRoom.bounded k (ymax b) /\ proper_box (rbox b).

Lemma box_poly_B b : map rp (copy_box_vertices b) = copy_box_vertices (rbox b).
Proof. reflexivity. Qed.

Lemma overlap_point a b c d : a < d -> c < b -> a < b -> c < d -> exists x, a < x < b /\ c < x < d.
Proof. intros. exists ((Rmax a c + Rmin b d) / 2). unfold Rmax, Rmin. destruct (Rle_dec a c), (Rle_dec b d); lra. Qed.

Lemma filter_sel_any {T} {NT : Num T} (pairs : list (Z * Z)) (fA : Z * Z -> T) :
  combine (mask pairs (map (fun x => nltb (nofZ 0) x) (map fA pairs)))
          (mask (map fA pairs) (map (fun x => nltb (nofZ 0) x) (map fA pairs)))
  = map (fun ij => (ij, fA ij)) (filter (fun ij => nltb (nofZ 0) (fA ij)) pairs).
Proof.
  rewrite mask_filter by (now rewrite map_length). induction pairs as [|x l IH]; auto. cbn [map combine filter snd].
  destruct (nltb (nofZ 0) (fA x)); cbn [map]; now rewrite IH.
Qed.

Theorem float_intersect_boxes k g (vs : list (point b64)) faces fill nb cpl t :
  (-200 <= k <= 300)%Z -> mesh_ok vs faces fill -> bounded_vertices k vs -> rect_mesh (map rp vs) faces fill ->
  CellTree2d_init g vs faces fill nb cpl = Ok t ->
  forall boxes, Forall (float_box k) boxes ->
  exists rows,
    (forall g' n_threads, (1 <= n_threads)%nat -> CellTree2d_intersect_boxes g' n_threads t boxes = Ok rows)
    /\ NoDup (map fst rows)
    (* every row is an overlapping pair with nearly its area *)
    /\ (forall i j A, In ((i, j), A) rows -> exists b poly A',
          (0 <= i)%Z /\ nth_error boxes (Z.to_nat i) = Some b /\ face_poly (map rp vs) faces fill j poly
          /\ area_of (fun p => in_box (rbox b) p /\ hull poly p) A' /\ 0 < A' /\ is_finite A = true /\ 0 < B2R A
          /\ forall W, bpow radix2 (k - 46) <= W <= bpow radix2 (k + 1) -> spanning W (copy_box_vertices (rbox b) ++ poly) ->
               Rabs (B2R A - A') <= bpow radix2 (k - 35) * W)
    (* every pair with a larger overlap than the error has a row *)
    /\ (forall i j b poly A' W, (0 <= i)%Z -> nth_error boxes (Z.to_nat i) = Some b -> face_poly (map rp vs) faces fill j poly ->
          area_of (fun p => in_box (rbox b) p /\ hull poly p) A' ->
          bpow radix2 (k - 46) <= W <= bpow radix2 (k + 1) -> spanning W (copy_box_vertices (rbox b) ++ poly) ->
          bpow radix2 (k - 35) * W < A' -> exists A, In ((i, j), A) rows).
Proof.
  intros Hk Hm Hbd Hr E boxes HB. rewrite Forall_forall in HB.
  pose proof (init_built _ _ _ _ _ _ _ Hm E) as Hb. pose proof (bt_vertices _ _ _ _ _ Hb) as Evs.
  destruct (boxes_result t boxes (built_valid _ _ _ _ _ Hb)) as (pairs & HR & Hnd & Hin & _).
  destruct (Zb_exact 0 ltac:(cbv; discriminate)) as (F0 & E0).
  (* one pair *)
  assert (P : forall i j a polyR, (0 <= i)%Z -> nth_error boxes (Z.to_nat i) = Some a -> face_poly (map rp vs) faces fill j polyR ->
     exists A A', (forall g', box_area_one g' boxes vs (elements (celltree_data t)) (i, j) = Ok A) /\ is_finite A = true
       /\ area_of (fun p => in_box (rbox a) p /\ hull polyR p) A' /\ (In (i, j) pairs <-> 0 < A')
       /\ (forall W, bpow radix2 (k - 46) <= W <= bpow radix2 (k + 1) -> spanning W (copy_box_vertices (rbox a) ++ polyR) ->
            Rabs (B2R A - A') <= bpow radix2 (k - 35) * W)).
  { intros i j a polyR H0 Ea FB. destruct (HB a (nth_error_In _ _ Ea)) as (X1 & X2 & Y1 & Y2 & Pa).
    pose proof (box_poly_convex _ Pa) as Ca. destruct (Hr j polyR FB) as (Cv & L4 & HS).
    destruct (stored_ccw _ _ _ _ _ _ _ _ _ Hm E FB Cv) as (f' & poly & bb & H1 & Ef & Ebb & Wf & Pf & Cf & So & Tb).
    { intros poly EP HI. destruct (rect_corners polyR Cv L4 HS) as (x0 & x1 & y0 & y1 & D1 & D2 & HCor).
      assert (BP : forall p, In p poly -> bpt k p /\ corner x0 x1 y0 y1 (rp p)).
      { intros p Hp. split.
        - rewrite Forall_forall in HI. unfold bounded_vertices in Hbd. rewrite Forall_forall in Hbd. apply Hbd. now apply HI.
        - apply HCor. rewrite <- EP. now apply in_map. }
      intros u v w Iu Iv Iw. apply (turn_corner k ltac:(lia) x0 x1 y0 y1); auto; apply BP; auto. }
    assert (BP : Forall (bpt k) poly) by (eapply poly_of_bounded; eauto).
    pose proof (tight_box_B k poly bb BP Tb) as TbR.
    assert (HSf : forall u v, In (u, v) (poly_edges (map rp poly)) -> axis_side u v).
    { intros u v He. destruct So as [So|So]; rewrite So in He; auto. apply edges_rev_in in He. apply axis_side_sym. now apply HS. }
    assert (Lf : length poly = 4%nat). { rewrite <- (map_length rp). destruct So as [So|So]; rewrite So; rewrite ?rev_length; auto. }
    assert (Ba : Forall (bpt k) (copy_box_vertices a)) by (apply Forall_forall; intros p [<-|[<-|[<-|[<-|[]]]]]; split; assumption).
    assert (HClip : forall W, bpow radix2 (k - 46) <= W <= bpow radix2 (k + 1) -> spanning W (copy_box_vertices (rbox a) ++ polyR) ->
      exists A, polygon_polygon_clip_area g (copy_box_vertices a) poly = Ok A /\ is_finite A = true
        /\ exists A', area_of (fun p => hull (map rp (copy_box_vertices a)) p /\ hull (map rp poly) p) A'
             /\ Rabs (B2R A - A') <= bpow radix2 (k - 35) * W).
    { intros W HW HSp. apply float_clip_area; auto.
      - intros p q Hp Hq. rewrite box_poly_B in Hp, Hq. apply HSp.
        + apply in_or_app. apply in_app_or in Hp as [Hp|Hp]; auto. right. destruct So as [So|So]; rewrite So in Hp; auto. now apply in_rev.
        + apply in_or_app. apply in_app_or in Hq as [Hq|Hq]; auto. right. destruct So as [So|So]; rewrite So in Hq; auto. now apply in_rev.
      - cbn. lia. }
    assert (Wk : bpow radix2 (k - 46) <= bpow radix2 (k + 1) <= bpow radix2 (k + 1)) by (split; [apply bpow_le; lia|lra]).
    assert (Sk : spanning (bpow radix2 (k + 1)) (copy_box_vertices (rbox a) ++ polyR)).
    { assert (G : forall p, In p (copy_box_vertices (rbox a) ++ polyR) -> Rabs (px p) <= bpow radix2 k /\ Rabs (py p) <= bpow radix2 k).
      { assert (G' : forall l x, Forall (bpt k) l -> In x (map rp l) -> Rabs (px x) <= bpow radix2 k /\ Rabs (py x) <= bpow radix2 k).
        { intros l x Hl Hx. rewrite Forall_forall in Hl. apply in_map_iff in Hx as (y & <- & Hy). destruct (Hl y Hy) as ((_ & G1) & (_ & G2)). auto. }
        intros p Hp. apply in_app_or in Hp as [Hp|Hp]; [apply (G' _ p Ba); now rewrite box_poly_B|apply (G' _ p BP)].
        destruct So as [So|So]; rewrite So; auto. now apply -> in_rev. }
      assert (Ek1 : bpow radix2 (k + 1) = 2 * bpow radix2 k) by (rewrite bpow_plus; change (bpow radix2 1) with 2; ring).
      intros p q Hp Hq. destruct (G p Hp) as (G1 & G2). destruct (G q Hq) as (G3 & G4). apply Rabs_le_iff in G1, G2, G3, G4.
      rewrite Ek1. split; apply Rabs_le_iff; lra. }
    destruct (HClip _ Wk Sk) as (A & EA & FA & A' & HA & _).
    assert (SET : forall p, hull (map rp (copy_box_vertices a)) p /\ hull (map rp poly) p <-> in_box (rbox a) p /\ hull polyR p).
    { intros p. rewrite box_poly_B, (box_poly_hull _ p Pa), (hull_either polyR (map rp poly) p So). reflexivity. }
    exists A, A'. split; [|split; [|split; [|split]]].
    - intros g'. unfold box_area_one. cbn [fst snd]. rewrite (aget_pos _ _ _ H0 Ea), (aget_pos _ _ _ H1 Ef). cbn [bind].
      rewrite (copy_vertices_ok g' _ _ _ Wf Pf). cbn [bind]. rewrite (clip_area_any_garbage g' g). exact EA.
    - auto.
    - eapply area_of_ext; [exact SET|exact HA].
    - rewrite box_poly_B in HA. rewrite (positive_interior _ _ A' Ca Cf HA).
      destruct (tight_bounded k poly bb BP Tb) as (T1 & T2 & T3 & T4).
      assert (SO : strict_overlap a bb <-> (B2R (xmin a) < B2R (xmax bb) /\ B2R (xmin bb) < B2R (xmax a)
                   /\ B2R (ymin a) < B2R (ymax bb) /\ B2R (ymin bb) < B2R (ymax a))).
      { unfold strict_overlap. destruct X1 as (f1 & _), X2 as (f2 & _), Y1 as (f3 & _), Y2 as (f4 & _), T1 as (f5 & _), T2 as (f6 & _), T3 as (f7 & _), T4 as (f8 & _).
        rewrite !nltb_B by auto. rewrite !Rltb_iff. tauto. }
      split.
      + intros HI. apply Hin in HI as (a' & bb' & _ & _ & Ea' & Ebb' & SO').
        rewrite Ea in Ea'. injection Ea' as <-. rewrite Ebb in Ebb'. injection Ebb' as <-.
        apply SO in SO' as (O1 & O2 & O3 & O4). destruct Pa as (Px & Py). unfold rbox in Px, Py. cbn [xmin xmax ymin ymax] in Px, Py.
        assert (TW : B2R (xmin bb) < B2R (xmax bb) /\ B2R (ymin bb) < B2R (ymax bb)).
        { destruct (interior_exists _ Cf) as (p & Hp). pose proof (interior_box (map rp poly) (rbox bb) p Cf TbR Hp) as (Q1 & Q2).
          unfold rbox in Q1, Q2. cbn [xmin xmax ymin ymax] in Q1, Q2. lra. }
        destruct (overlap_point (B2R (xmin a)) (B2R (xmax a)) (B2R (xmin bb)) (B2R (xmax bb))) as (x & Hx1 & Hx2); [lra..|].
        destruct (overlap_point (B2R (ymin a)) (B2R (ymax a)) (B2R (ymin bb)) (B2R (ymax bb))) as (y & Hy1 & Hy2); [lra..|].
        exists (Pt x y). split; [apply box_interior_conv; [split|..]; cbn; lra|].
        apply (rect_interior _ (rbox bb)); auto.
      + intros (p & P1 & P2). apply (box_interior _ p Pa) in P1. pose proof (interior_box _ _ p Cf TbR P2) as P3.
        apply Hin. exists a, bb. split; [exact H0|]. split; [exact H1|]. split; [exact Ea|]. split; [exact Ebb|].
        apply SO. unfold rbox in P1, P3. cbn [xmin xmax ymin ymax] in P1, P3. lra.
    - intros W HW HSp. destruct (HClip W HW HSp) as (A2 & EA2 & _ & A2' & HA2 & HE2). rewrite EA in EA2. apply Ok_inj in EA2. subst A2.
      rewrite (area_of_unique _ _ _ HA HA2). exact HE2. }
  assert (EX : forall i j, In (i, j) pairs -> (0 <= i)%Z /\ exists a polyR, nth_error boxes (Z.to_nat i) = Some a /\ face_poly (map rp vs) faces fill j polyR).
  { intros i j H. apply Hin in H as (a & bb & H0 & H1 & Ea & Ebb & _). split; auto.
    pose proof (vt_elements _ (built_valid _ _ _ _ _ Hb)) as L2.
    assert (Z.to_nat j < length (bb_coords (celltree_data t)))%nat by (apply nth_error_Some; congruence).
    destruct (nth_error (elements (celltree_data t)) (Z.to_nat j)) as [f'|] eqn:Ef; [|apply nth_error_None in Ef; lia].
    destruct (stored_back_float _ _ _ _ _ _ _ Hm Hb H1 Ef) as (polyR & HP). eauto. }
  set (fA := fun ij => match box_area_one g boxes vs (elements (celltree_data t)) ij with Ok A => A | Err _ => nofZ 0 end).
  assert (EF : forall i j A, (forall g', box_area_one g' boxes vs (elements (celltree_data t)) (i, j) = Ok A) -> fA (i, j) = A).
  { intros i j A H. unfold fA. now rewrite H. }
  assert (POS : forall A : b64, is_finite A = true -> (nltb (nofZ 0) A = true <-> 0 < B2R A)).
  { intros A FA. rewrite nltb_B by (first [exact FA|exact F0]). change (nofZ 0 : b64) with (Zb 0). rewrite E0. apply Rltb_iff. }
  exists (map (fun ij => (ij, fA ij)) (filter (fun ij => nltb (nofZ 0) (fA ij)) pairs)). split; [|split; [|split]].
  - intros g' n Hn. specialize (HR g' n Hn). unfold CellTree2d_locate_boxes in HR. unfold CellTree2d_intersect_boxes.
    rewrite HR. cbn [bind]. unfold box_area_of_intersection. rewrite Evs. rewrite (Base.mapres_ok _ fA).
    + cbn [bind]. f_equal. apply filter_sel_any.
    + intros (i, j) Hij. destruct (EX i j Hij) as (H0 & a & b & Ea & FB). destruct (P i j a b H0 Ea FB) as (A & A' & EA & _).
      rewrite EA. f_equal. symmetry. now apply EF.
  - rewrite map_map. cbn [fst]. rewrite map_id. now apply NoDup_filter.
  - intros i j A HI. apply in_map_iff in HI as (ij & Eij & Hf). injection Eij as -> <-. apply filter_In in Hf as (Hij & Hp).
    destruct (EX i j Hij) as (H0 & a & b & Ea & FB). destruct (P i j a b H0 Ea FB) as (A & A' & EA & FA & HA & HPos & HErr).
    rewrite (EF _ _ _ EA) in *. exists a, b, A'. split; auto. split; auto. split; auto. split; auto. split; [now apply HPos|].
    split; auto. split; [now apply POS|auto].
  - intros i j b poly A' W H0 Ea FB HA HW HS HG. destruct (P i j b poly H0 Ea FB) as (A & A2 & EA & FA & HA2 & HPos & HErr).
    assert (A2 = A') by apply (area_of_unique _ _ _ HA2 HA). subst A2.
    specialize (HErr W HW HS). apply Rabs_le_iff in HErr.
    assert (PB : 0 < bpow radix2 (k - 35) * W) by (apply Rmult_lt_0_compat; [apply bpow_gt_0|pose proof (bpow_gt_0 radix2 (k - 46)); lra]).
    exists A. apply in_map_iff. exists (i, j). rewrite (EF _ _ _ EA). split; auto. apply filter_In. split; [apply HPos; lra|].
    rewrite (EF _ _ _ EA). apply POS; auto. lra.
Qed.
