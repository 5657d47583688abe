(** Padding does not change the answer of any query: two trees built from the
    same faces with different fill values and numbers of columns. *)
From Coq Require Import FunctionalExtensionality.
From Verif Require Import Base Num MUtils MGeometry MCreation MAlgorithms MQuery MCelltree PStack PPartition
  SpecTree PBuild PWalk SpecQuery PQuery PMesh PInit SpecApi PPoints PTreeFacts PApi PFaces PSmall.
Local Open Scope Z_scope.

Section Pad.
  Context {T : Type} {NT : Num T} {NO : NumOrd T}.
  Notation point := (point T).

  (** the same faces up to padding *)
  Definition pad_faces (nv : nat) : list (list Z) -> list (list Z) -> Prop :=
    Forall2 (fun f f' => wf_face nv f /\ wf_face nv f' /\ until_fill f = until_fill f').

  Lemma copy_pad g (vs : list point) f f' : wf_face (length vs) f -> wf_face (length vs) f' -> until_fill f = until_fill f' ->
    copy_vertices g vs f = copy_vertices g vs f'.
  Proof.
    intros H H' E. destruct (poly_exists vs f) as (poly & Hp); [apply H|].
    rewrite (copy_vertices_ok g vs f poly H Hp). symmetry. apply copy_vertices_ok; auto. unfold poly_of in *. now rewrite <- E.
  Qed.

  Lemma pad_length nv es es' : pad_faces nv es es' -> length es = length es'.
  Proof. intros H. induction H; cbn; congruence. Qed.

  Lemma pad_get {B} nv es es' j (k k' : list Z -> res B) : pad_faces nv es es' ->
    (forall f f', wf_face nv f -> wf_face nv f' -> until_fill f = until_fill f' -> k f = k' f') ->
    bind (aget es j) k = bind (aget es' j) k'.
  Proof.
    intros H HK. unfold aget. rewrite <- (pad_length _ _ _ H). destruct (norm_idx (length es) j) as [i|]; [|reflexivity].
    destruct (nth_error es i) as [f|] eqn:E.
    - destruct (Forall2_nth_l _ _ _ _ _ H E) as (f' & E' & W & W' & Ef). rewrite E'. cbn [bind]. auto.
    - assert (E' : nth_error es' i = None) by (apply nth_error_None; rewrite <- (pad_length _ _ _ H); now apply nth_error_None).
      rewrite E'. reflexivity.
  Qed.

  (** two trees that differ in the padding only *)
  Definition pad_tree (t t' : tree2d (T:=T)) : Prop :=
    exists es es' vs nd bi bc bb cpl bd nb nb',
      t = Tree2d (CellTree es vs nd bi bc bb cpl) bd nb
      /\ t' = Tree2d (CellTree es' vs nd bi bc bb cpl) bd nb' /\ pad_faces (length vs) es es'.

  Lemma face_test_pad g t t' p tol : pad_tree t t' ->
    face_test g (celltree_data t) p tol = face_test g (celltree_data t') p tol.
  Proof.
    intros (es & es' & vs & nd & bi & bc & bb & cpl & bd & nb & nb' & -> & -> & H). extensionality j.
    unfold face_test. cbn [celltree_data elements vertices]. apply (pad_get _ _ _ _ _ _ H).
    intros f f' W W' E. pose proof (copy_pad g vs f f' W W' E) as C. unfold copy_vertices in C. now rewrite C.
  Qed.

  Lemma edge_face_pad g cs t t' : pad_tree t t' ->
    compute_edge_face_intersect g cs (celltree_data t) = compute_edge_face_intersect g cs (celltree_data t').
  Proof.
    intros (es & es' & vs & nd & bi & bc & bb & cpl & bd & nb & nb' & -> & -> & H). extensionality j. extensionality a. extensionality b.
    unfold compute_edge_face_intersect. cbn [celltree_data elements vertices bb_coords].
    destruct (aget bc j) as [bx|]; [|reflexivity]. cbn [bind].
    destruct (cohen_sutherland_line_box_clip cs a b bx) as [[c|]|]; try reflexivity. cbn [bind].
    apply (pad_get _ _ _ _ _ _ H).
    intros f f' W W' E. pose proof (copy_pad g vs f f' W W' E) as C. unfold copy_vertices in C. now rewrite C.
  Qed.

  Lemma locate_points_pad g t t' pts tol : pad_tree t t' ->
    CellTree2d_locate_points g t pts tol = CellTree2d_locate_points g t' pts tol.
  Proof.
    intros H. unfold CellTree2d_locate_points.
    assert (G : get_tolerance t tol = get_tolerance t' tol).
    { destruct H as (es & es' & vs & nd & bi & bc & bb & cpl & bd & nb & nb' & -> & -> & _). reflexivity. }
    rewrite G. destruct (get_tolerance t' tol) as [x|]; [|reflexivity]. cbn [bind]. unfold locate_points.
    f_equal. extensionality p. unfold locate_point. rewrite (face_test_pad g t t' p x H).
    destruct H as (es & es' & vs & nd & bi & bc & bb & cpl & bd & nb & nb' & -> & -> & _). reflexivity.
  Qed.

  Lemma locate_boxes_pad g t t' boxes n : pad_tree t t' ->
    locate_boxes g boxes (celltree_data t) n = locate_boxes g boxes (celltree_data t') n.
  Proof.
    intros H. destruct H as (es & es' & vs & nd & bi & bc & bb & cpl & bd & nb & nb' & -> & -> & _). reflexivity.
  Qed.

  Lemma intersect_edges_pad g cs n t t' queries : pad_tree t t' ->
    CellTree2d_intersect_edges g cs n t queries = CellTree2d_intersect_edges g cs n t' queries.
  Proof.
    intros H. unfold CellTree2d_intersect_edges, locate_edge_faces. rewrite (edge_face_pad g cs t t' H).
    destruct H as (es & es' & vs & nd & bi & bc & bb & cpl & bd & nb & nb' & -> & -> & _). reflexivity.
  Qed.

  Lemma box_area_pad g t t' boxes : pad_tree t t' ->
    box_area_one g boxes (vertices (celltree_data t)) (elements (celltree_data t))
    = box_area_one g boxes (vertices (celltree_data t')) (elements (celltree_data t')).
  Proof.
    intros (es & es' & vs & nd & bi & bc & bb & cpl & bd & nb & nb' & -> & -> & H). extensionality ij.
    unfold box_area_one. cbn [celltree_data elements vertices].
    destruct (aget boxes (fst ij)) as [bx|]; [|reflexivity]. cbn [bind]. apply (pad_get _ _ _ _ _ _ H).
    intros f f' W W' E. now rewrite (copy_pad g vs f f' W W' E).
  Qed.

  Lemma intersect_boxes_pad g n t t' boxes : pad_tree t t' ->
    CellTree2d_intersect_boxes g n t boxes = CellTree2d_intersect_boxes g n t' boxes.
  Proof.
    intros H. unfold CellTree2d_intersect_boxes, box_area_of_intersection. rewrite (locate_boxes_pad g t t' boxes n H).
    rewrite (box_area_pad g t t' boxes H). reflexivity.
  Qed.

  (** ** query faces: also padded differently *)
  Lemma ccw_pad (vs : list point) q q' : pad_faces (length vs) q q' ->
    exists h h', counter_clockwise vs q = Ok h /\ counter_clockwise vs q' = Ok h' /\ pad_faces (length vs) h h'.
  Proof.
    intros H. unfold counter_clockwise. induction H as [|f f' l l' (W & W' & E) _ IH].
    - exists [], []. repeat split; constructor.
    - destruct IH as (h & h' & E1 & E2 & HP).
      destruct (ccw_face_ok vs f) as (r & Er & Wr & _); auto. destruct (ccw_face_ok vs f') as (r' & Er' & Wr' & _); auto.
      destruct (ccw_face_same vs f f' W W' E) as (s & s' & Es & Es' & S & _).
      rewrite Er in Es. rewrite Er' in Es'. injection Es as <-. injection Es' as <-.
      exists (r :: h), (r' :: h'). cbn [mapres]. rewrite Er, Er'. cbn [bind]. rewrite E1, E2. cbn [bind]. split; auto. split; auto.
      constructor; auto.
  Qed.

  Lemma bboxes_pad (vs : list point) q q' : pad_faces (length vs) q q' -> build_face_bboxes q vs = build_face_bboxes q' vs.
  Proof.
    intros H. apply build_face_bboxes_same; induction H as [|f f' l l' (W & W' & E) _ IH]; constructor; auto. apply W.
  Qed.

  Lemma intersect_one_pad g t t' (vs : list point) q q' : pad_tree t t' -> pad_faces (length vs) q q' ->
    polygons_intersect_one g vs (vertices (celltree_data t)) q (elements (celltree_data t))
    = polygons_intersect_one g vs (vertices (celltree_data t')) q' (elements (celltree_data t')).
  Proof.
    intros (es & es' & vt & nd & bi & bc & bb & cpl & bd & nb & nb' & -> & -> & H) HQ. extensionality ij.
    unfold polygons_intersect_one. cbn [celltree_data elements vertices]. apply (pad_get _ _ _ _ _ _ HQ).
    intros f f' W W' E. apply (pad_get _ _ _ _ _ _ H). intros h h' V V' E'.
    now rewrite (copy_pad g vs f f' W W' E), (copy_pad g vt h h' V V' E').
  Qed.
  Lemma area_one_pad g t t' (vs : list point) q q' : pad_tree t t' -> pad_faces (length vs) q q' ->
    area_of_intersection_one g vs (vertices (celltree_data t)) q (elements (celltree_data t))
    = area_of_intersection_one g vs (vertices (celltree_data t')) q' (elements (celltree_data t')).
  Proof.
    intros (es & es' & vt & nd & bi & bc & bb & cpl & bd & nb & nb' & -> & -> & H) HQ. extensionality ij.
    unfold area_of_intersection_one. cbn [celltree_data elements vertices]. apply (pad_get _ _ _ _ _ _ HQ).
    intros f f' W W' E. apply (pad_get _ _ _ _ _ _ H). intros h h' V V' E'.
    now rewrite (copy_pad g vs f f' W W' E), (copy_pad g vt h h' V V' E').
  Qed.

  (** the pairs, or the error *)
  Lemma locate_faces_pad g n t t' (vs : list point) q q' : pad_tree t t' -> pad_faces (length vs) q q' ->
    match CellTree2d_locate_faces g n t vs q, CellTree2d_locate_faces g n t' vs q' with
    | Ok (pairs, h), Ok (pairs', h') => pairs = pairs' /\ pad_faces (length vs) h h'
    | Err e, Err e' => e = e'
    | _, _ => False
    end.
  Proof.
    intros H HQ. unfold CellTree2d_locate_faces. destruct (ccw_pad vs q q' HQ) as (h & h' & -> & -> & HP). cbn [bind].
    rewrite (bboxes_pad vs h h' HP). destruct (build_face_bboxes h' vs) as [bc|]; [|reflexivity]. cbn [bind].
    rewrite (locate_boxes_pad g t t' bc n H). destruct (locate_boxes g bc (celltree_data t') n) as [sl|]; [|reflexivity]. cbn [bind].
    unfold polygons_intersect. rewrite (intersect_one_pad g t t' vs h h' H HP).
    destruct (mapres _ sl) as [m|]; [|reflexivity]. cbn [bind]. auto.
  Qed.

  Lemma intersect_faces_pad g n t t' (vs : list point) q fill q' fill' : pad_tree t t' ->
    pad_faces (length vs) (map (with_fill fill) q) (map (with_fill fill') q') ->
    CellTree2d_intersect_faces g n t vs q fill = CellTree2d_intersect_faces g n t' vs q' fill'.
  Proof.
    intros H HQ. unfold CellTree2d_intersect_faces.
    assert (C : forall fs fl, Forall (wf_face (length vs)) (map (with_fill fl) fs) -> cast_faces fs fl = Ok (map (with_fill fl) fs)).
    { intros fs fl Hw. rewrite cast_faces_spec. replace (existsb _ fs) with false; auto. symmetry. apply not_true_iff_false. intros E.
      apply existsb_exists in E as (f & Hi & E). apply Z.ltb_lt in E. rewrite Forall_forall in Hw. specialize (Hw (with_fill fl f)).
      destruct Hw as (_ & H32 & _); [now apply in_map|]. unfold with_fill in H32. rewrite map_length in H32. unfold zlen in E. lia. }
    rewrite !C; [|clear - HQ; induction HQ as [|f f' l l' (W & W' & _) _ IH]; constructor; auto ..]. cbn [bind].
    pose proof (locate_faces_pad g n t t' vs _ _ H HQ) as L.
    destruct (CellTree2d_locate_faces g n t vs _) as [(ij, h)|]; destruct (CellTree2d_locate_faces g n t' vs _) as [(ij', h')|];
      try contradiction; [|now rewrite L]. destruct L as (-> & HP). cbn [bind].
    unfold area_of_intersection. now rewrite (area_one_pad g t t' vs h h' H HP).
  Qed.

  (** ** Weights *)
  Lemma aset_app {A} (w z : list A) i v : 0 <= i < zlen w -> aset (w ++ z) i v = let* w' := aset w i v in Ok (w' ++ z).
  Proof.
    intros Hi. rewrite !aset_pos; auto; [|unfold zlen in *; rewrite app_length; lia]. cbn [bind]. f_equal.
    assert (L : (Z.to_nat i < length w)%nat) by (unfold zlen in Hi; lia). clear Hi. revert L. generalize (Z.to_nat i). induction w as [|x w IH]; cbn; [lia|].
    intros [|k] L; cbn; auto. f_equal. apply IH. lia.
  Qed.
  Lemma aget_app1 {A} (w z : list A) i : 0 <= i < zlen w -> aget (w ++ z) i = aget w i.
  Proof.
    intros Hi. destruct (aget_ok_pos w i Hi) as (x & E & En). rewrite E. apply aget_pos; [lia|]. rewrite nth_error_app1; auto.
    apply nth_error_Some. congruence.
  Qed.

  Notation zeros := (repeat (nofZ 0 : T)).

  Lemma zeros_zero k : map (fun _ => nofZ 0 : T) (zeros k) = zeros k.
  Proof. induction k; cbn; congruence. Qed.

  Lemma interp_pad (a U p : point) w k i j : 0 <= i < zlen w -> 0 <= j < zlen w ->
    interp_edge_case a U p (w ++ zeros k) i j = let* w' := interp_edge_case a U p w i j in Ok (w' ++ zeros k).
  Proof.
    intros Hi Hj. unfold interp_edge_case. destruct (ndiv _ _) as [x|]; [|reflexivity]. cbn [bind].
    rewrite map_app, zeros_zero. assert (L : zlen (map (fun _ => nofZ 0 : T) w) = zlen w) by (unfold zlen; now rewrite map_length).
    rewrite aset_app by lia. destruct (aset (map _ w) i _) as [w1|] eqn:E1; [|reflexivity]. cbn [bind].
    apply aset_length in E1. rewrite aset_app by (unfold zlen in *; lia). reflexivity.
  Qed.

  Lemma loop_pad (poly : list point) p tol n k : 0 < n -> forall m i w ws a b U Ai, zlen w = n -> 0 <= i -> i + Z.of_nat m <= n ->
    wachspress_loop poly p tol n m i (w ++ zeros k) ws a b U Ai
    = let* r := wachspress_loop poly p tol n m i w ws a b U Ai in
      Ok (match r with inl w' => inl (w' ++ zeros k) | inr (w', s) => inr (w' ++ zeros k, s) end).
  Proof.
    intros Hn. induction m as [|m IH]; intros i w ws a b U Ai L Hi Hm; [reflexivity|]. cbn [wachspress_loop].
    destruct (aget poly _) as [c|]; [|reflexivity]. cbn [bind]. destruct (within_perpendicular_distance _ _ _).
    - rewrite interp_pad; [|lia|rewrite L; apply Z.mod_pos_bound; lia]. destruct (interp_edge_case _ _ _ w _ _) as [w'|]; reflexivity.
    - destruct (ndiv _ _) as [x|]; [|reflexivity]. cbn [bind]. rewrite aset_app by lia.
      destruct (aset w i x) as [w'|] eqn:E; [|reflexivity]. cbn [bind]. apply aset_length in E. apply IH; [unfold zlen in *; lia|lia|lia].
  Qed.

  Lemma norm_pad s k : forall m i w, 0 <= i -> i + Z.of_nat m <= zlen w ->
    for_loop m i (fun i weights => let* w := aget weights i in let* w := ndiv w s in aset weights i w) (w ++ zeros k)
    = let* w' := for_loop m i (fun i weights => let* w := aget weights i in let* w := ndiv w s in aset weights i w) w in Ok (w' ++ zeros k).
  Proof.
    induction m as [|m IH]; intros i w Hi Hm; [reflexivity|]. cbn [for_loop]. rewrite aget_app1 by lia.
    destruct (aget w i) as [x|]; [|reflexivity]. cbn [bind]. destruct (ndiv x s) as [y|]; [|reflexivity]. cbn [bind].
    rewrite aset_app by lia. destruct (aset w i y) as [w'|] eqn:E; [|reflexivity]. cbn [bind]. apply aset_length in E.
    apply IH; unfold zlen in *; lia.
  Qed.

  Lemma wachspress_pad (poly : list point) p tol w k : poly <> [] -> length w = length poly ->
    wachspress_weights poly p (w ++ zeros k) tol = let* w' := wachspress_weights poly p w tol in Ok (w' ++ zeros k).
  Proof.
    intros Hne L. unfold wachspress_weights. destruct (aget poly (-1)) as [a|]; [|reflexivity]. cbn [bind].
    assert (Hn : 0 < zlen poly) by (unfold zlen; destruct poly; [congruence|cbn; lia]). assert (Lz : zlen w = zlen poly) by (unfold zlen; congruence).
    destruct (aget poly 0) as [b|]; [|reflexivity]. cbn [bind]. destruct (within_perpendicular_distance _ _ _).
    - apply interp_pad; lia.
    - rewrite loop_pad by (auto; unfold zlen in *; lia).
      destruct (wachspress_loop poly p tol _ _ 0 w _ a b _ _) as [[w'|(w', s)]|] eqn:E; try reflexivity. cbn [bind].
      unfold for_range. apply norm_pad; [lia|]. rewrite Z.sub_0_r.
      assert (Lw : length w' = length w).
      { assert (HI : forall m i w ws a b U Ai w' s, wachspress_loop poly p tol (zlen poly) m i w ws a b U Ai = Ok (inr (w', s)) -> length w' = length w).
        { clear. induction m as [|m IH]; intros i w ws a b U Ai w' s E; cbn [wachspress_loop] in E; [inversion E; auto|].
          destruct (aget poly _) as [c|]; [|discriminate]. cbn [bind] in E. destruct (within_perpendicular_distance _ _ _).
          - destruct (interp_edge_case _ _ _ _ _ _); discriminate.
          - destruct (ndiv _ _) as [x|]; [|discriminate]. cbn [bind] in E. destruct (aset w i x) as [w2|] eqn:E2; [|discriminate].
            cbn [bind] in E. apply IH in E. apply aset_length in E2. congruence. }
        eapply HI; eauto. }
      unfold zlen in *. lia.
  Qed.

  (** the same weights, followed by zeros *)
  Definition same_weights (r r' : list T) : Prop := exists w k k', r = w ++ zeros k /\ r' = w ++ zeros k'.

  Lemma wachspress_one_pad g (vs : list point) es es' m m' tol p j : pad_faces (length vs) es es' ->
    Forall (fun f => length f = m) es -> Forall (fun f => length f = m') es' ->
    match barycentric_wachspress_one g m es vs tol (p, j), barycentric_wachspress_one g m' es' vs tol (p, j) with
    | Ok r, Ok r' => same_weights r r'
    | Err e, Err e' => e = e'
    | _, _ => False
    end.
  Proof.
    intros H Hm Hm'. unfold barycentric_wachspress_one. destruct (j =? -1).
    - exists [], m, m'. auto.
    - unfold aget. rewrite <- (pad_length _ _ _ H). destruct (norm_idx (length es) j) as [i|]; [|reflexivity].
      destruct (nth_error es i) as [f|] eqn:E.
      2:{ assert (E' : nth_error es' i = None) by (apply nth_error_None; rewrite <- (pad_length _ _ _ H); now apply nth_error_None).
          rewrite E'. reflexivity. }
      destruct (Forall2_nth_l _ _ _ _ _ H E) as (f' & E' & W & W' & Ef). rewrite E'. cbn [bind]. rewrite <- (copy_pad g vs f f' W W' Ef).
      destruct (poly_exists vs f) as (poly & Hp); [apply W|]. rewrite (copy_vertices_ok g vs f poly W Hp). cbn [bind].
      assert (Lf : length f = m) by (rewrite Forall_forall in Hm; apply Hm; eapply nth_error_In; eauto).
      assert (Lf' : length f' = m') by (rewrite Forall_forall in Hm'; apply Hm'; eapply nth_error_In; eauto).
      pose proof (poly_of_length _ _ _ Hp) as Lp. pose proof (until_fill_length f) as B. pose proof (until_fill_length f') as B'.
      destruct W as (W3 & _). rewrite <- Ef in B'.
      assert (Sp : forall q, (length poly <= q)%nat -> zeros q = zeros (length poly) ++ zeros (q - length poly))
        by (intros q Hq; rewrite <- repeat_app; f_equal; lia).
      rewrite (Sp m), (Sp m') by lia. rewrite !wachspress_pad by (try apply repeat_length; intros ->; cbn in Lp; lia).
      destruct (wachspress_weights poly p (zeros (length poly)) tol) as [w|]; [|reflexivity]. cbn [bind].
      exists w, (m - length poly)%nat, (m' - length poly)%nat. auto.
  Qed.

  Lemma mapres_pad {A B} (R : B -> B -> Prop) (f f' : A -> res B) l :
    (forall x, match f x, f' x with Ok r, Ok r' => R r r' | Err e, Err e' => e = e' | _, _ => False end) ->
    match mapres f l, mapres f' l with Ok r, Ok r' => Forall2 R r r' | Err e, Err e' => e = e' | _, _ => False end.
  Proof.
    intros H. induction l as [|x l IH]; cbn [mapres]; [constructor|]. specialize (H x).
    destruct (f x), (f' x); try contradiction; cbn [bind]; auto.
    destruct (mapres f l), (mapres f' l); try contradiction; cbn [bind]; auto.
  Qed.

  Lemma weights_pad g t t' m m' pts tol : pad_tree t t' -> (3 < m)%nat -> (3 < m')%nat ->
    Forall (fun f => length f = m) (elements (celltree_data t)) -> Forall (fun f => length f = m') (elements (celltree_data t')) ->
    match CellTree2d_compute_barycentric_weights g t m pts tol, CellTree2d_compute_barycentric_weights g t' m' pts tol with
    | Ok (ix, r), Ok (ix', r') => ix = ix' /\ Forall2 same_weights r r'
    | Err e, Err e' => e = e'
    | _, _ => False
    end.
  Proof.
    intros H Hm Hm' Fm Fm'. unfold CellTree2d_compute_barycentric_weights.
    assert (G : get_tolerance t tol = get_tolerance t' tol).
    { destruct H as (es & es' & vs & nd & bi & bc & bb & cpl & bd & nb & nb' & -> & -> & _). reflexivity. }
    rewrite G. destruct (get_tolerance t' tol) as [x|]; [|reflexivity]. cbn [bind].
    rewrite (locate_points_pad g t t' pts (Some x) H). destruct (CellTree2d_locate_points g t' pts (Some x)) as [ix|]; [|reflexivity]. cbn [bind].
    apply Nat.ltb_lt in Hm, Hm'. rewrite Hm, Hm'.
    destruct H as (es & es' & vs & nd & bi & bc & bb & cpl & bd & nb & nb' & -> & -> & HP). cbn [celltree_data elements vertices] in *.
    assert (M : match barycentric_wachspress_weights g m pts ix es vs x, barycentric_wachspress_weights g m' pts ix es' vs x with
      Ok r, Ok r' => Forall2 same_weights r r' | Err e, Err e' => e = e' | _, _ => False end).
    { unfold barycentric_wachspress_weights. apply mapres_pad. intros i.
      destruct (aget pts i) as [p|], (aget ix i) as [j|]; cbn [bind]; try reflexivity. now apply wachspress_one_pad. }
    destruct (barycentric_wachspress_weights g m pts ix es vs x), (barycentric_wachspress_weights g m' pts ix es' vs x); try contradiction; cbn [bind]; auto.
  Qed.

  (** ** The trees *)
  Lemma init_pad g (vs : list point) faces fill faces' fill' nb cpl t t' :
    Forall (wf_face (length vs)) (map (with_fill fill) faces) ->
    Forall (wf_face (length vs)) (map (with_fill fill') faces') ->
    Forall2 (fun f f' => until_fill (with_fill fill f) = until_fill (with_fill fill' f')) faces faces' ->
    CellTree2d_init g vs faces fill nb cpl = Ok t -> CellTree2d_init g vs faces' fill' nb cpl = Ok t' -> pad_tree t t'.
  Proof.
    intros H1 H2 HF. unfold CellTree2d_init.
    destruct (check_params nb cpl); [|discriminate]. cbn [bind].
    assert (C : forall fs fl, Forall (wf_face (length vs)) (map (with_fill fl) fs) -> cast_faces fs fl = Ok (map (with_fill fl) fs)).
    { intros fs fl Hw. rewrite cast_faces_spec. replace (existsb _ fs) with false; auto. symmetry. apply not_true_iff_false. intros E.
      apply existsb_exists in E as (f & Hi & E). apply Z.ltb_lt in E. rewrite Forall_forall in Hw. specialize (Hw (with_fill fl f)).
      destruct Hw as (_ & H32 & _); [now apply in_map|]. unfold with_fill in H32. rewrite map_length in H32. unfold zlen in E. lia. }
    rewrite !C by auto. cbn [bind].
    destruct (ccw_pad vs (map (with_fill fill) faces) (map (with_fill fill') faces')) as (hs & hs' & E & E' & HP).
    { clear - H1 H2 HF. induction HF; cbn in *; constructor.
      - inversion H1; inversion H2; subst. auto.
      - inversion H1; inversion H2; subst. apply IHHF; auto. }
    rewrite E, E'. cbn [bind]. rewrite (bboxes_pad vs hs hs' HP), (pad_length _ _ _ HP).
    destruct (build_face_bboxes hs' vs) as [bbs|e]; [|discriminate]. cbn [bind].
    destruct (initialize _ _ _ _ _ _) as [(nds, bbi)|e]; [|discriminate]. cbn [bind].
    destruct (bbox_tree bbs) as [bb|e]; [|discriminate]. cbn [bind]. intros X X'. injection X as <-. injection X' as <-.
    exists hs, hs', vs, nds, bbi, bbs, bb, cpl, (bbox_distances bbs), nb, nb. auto.
  Qed.
End Pad.
