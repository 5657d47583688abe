(** Property theorems: triangles, weights, padding, tolerances, filtering. *)
From Verif Require Import Base Num MUtils MGeometry MCreation MAlgorithms MQuery MCelltree
  PStack PPartition SpecTree PBuild PBuild2 PWalk PCollect SpecQuery PQuery PMesh PInit SpecApi
  PPoints PApi PSmall NumR NumB64 NumSub SpecGeom SpecPoly RBase GTriangle Examples CsHang PropEdges.
Open Scope Z_scope.

Section Any.
  Context {T : Type} {NT : Num T} {NO : NumOrd T} {NS : NumSub T}.

  (** ** C26: exactly the located pairs with a positive area, in order *)
  Theorem C26_intersect_boxes_positive g n (t : tree2d (T:=T)) boxes rows :
    CellTree2d_intersect_boxes g n t boxes = Ok rows ->
    exists pairs, CellTree2d_locate_boxes g n t boxes = Ok pairs
      /\ (forall ij a, In (ij, a) rows <->
            In ij pairs /\ box_area_one g boxes (vertices (celltree_data t))
                             (elements (celltree_data t)) ij = Ok a
            /\ nltb (nofZ 0) a = true)
      /\ exists keep, length keep = length pairs
           /\ map fst rows = map fst (filter snd (combine pairs keep)).
  Proof.
    intros E. destruct (intersect_boxes_spec _ _ _ _ _ E) as (pairs & areas & Hp & HF & ->).
    exists pairs. split; auto. split; [now apply filter_rows|].
    destruct (filter_rows_order pairs areas) as (keep & H & Hl); [eapply F2_length; eauto|]. eauto.
  Qed.

  Theorem C26_intersect_faces_positive g n (t : tree2d (T:=T)) vs_ faces fill rows :
    CellTree2d_intersect_faces g n t vs_ faces fill = Ok rows ->
    exists pairs faces',
      CellTree2d_locate_faces g n t vs_ (map (with_fill fill) faces) = Ok (pairs, faces')
      /\ (forall ij a, In (ij, a) rows <->
            In ij pairs /\ area_of_intersection_one g vs_ (vertices (celltree_data t)) faces'
                             (elements (celltree_data t)) ij = Ok a
            /\ nltb (nofZ 0) a = true)
      /\ exists keep, length keep = length pairs
           /\ map fst rows = map fst (filter snd (combine pairs keep)).
  Proof.
    intros E. destruct (intersect_faces_spec _ _ _ _ _ _ _ E) as (faces' & pairs & areas & Hp & HF & ->).
    exists pairs, faces'. split; auto. split; [now apply filter_rows|].
    destruct (filter_rows_order pairs areas) as (keep & H & Hl); [eapply F2_length; eauto|]. eauto.
  Qed.

  (** ** C33: rows of weights *)
  Theorem C33_weight_rows g vs faces fill nb cpl (t : tree2d (T:=T)) :
    mesh_ok vs faces fill -> CellTree2d_init g vs faces fill nb cpl = Ok t ->
    forall g' n_max_vert pts tolerance js ws, (3 <= n_max_vert)%nat ->
    CellTree2d_compute_barycentric_weights g' t n_max_vert pts tolerance = Ok (js, ws) ->
    CellTree2d_locate_points g' t pts tolerance = Ok js
    /\ length ws = length pts
    /\ forall k j row, nth_error js k = Some j -> nth_error ws k = Some row ->
         length row = n_max_vert
         /\ (j = -1 -> row = repeat (nofZ 0) n_max_vert)
         /\ (j <> -1 -> exists f,
               nth_error (elements (celltree_data t)) (Z.to_nat j) = Some f
               /\ forall i x, (length (until_fill f) <= i)%nat -> nth_error row i = Some x -> x = nofZ 0).
  Proof.
    intros Hm E g' n pts tolerance js ws Hn Ew.
    pose proof (init_built _ _ _ _ _ _ _ Hm E) as Hb.
    apply weight_rows in Ew; auto.
    - apply (mt_faces _ (bt_mesh _ _ _ _ _ Hb)).
    - intros j Hj Hne. destruct (points_result _ _ _ _ t tolerance Hb) as (tol & Et & H).
      destruct (H pts) as (js' & Hjs & HF).
      assert (El : js = js').
      { unfold CellTree2d_compute_barycentric_weights in Ew. rewrite Et in Ew. cbn [bind] in Ew.
        specialize (Hjs g'). unfold CellTree2d_locate_points in *. rewrite Et in Hjs. cbn [bind get_tolerance] in *.
        rewrite Hjs in Ew. cbn [bind] in Ew. inv_bind Ew. congruence. }
      subst js'. apply In_nth_error in Hj as (k & Ek).
      destruct (nth_error pts k) as [p|] eqn:Ep.
      2:{ apply nth_error_None in Ep. rewrite (F2_length _ _ _ HF) in Ep. apply nth_error_None in Ep. congruence. }
      destruct (Forall2_nth _ _ _ _ _ _ HF Ep Ek) as [(f & poly & H0 & _)|(-> & _)]; congruence.
  Qed.

  (** ** C34: fill values and padding *)
  Theorem C34_cast_faces faces fill :
    (Exists (fun f => 32 < zlen f) faces /\ cast_faces faces fill = Err EValue)
    \/ (Forall (fun f => zlen f <= 32) faces /\ exists faces', cast_faces faces fill = Ok faces'
        /\ Forall2 (Forall2 (fun i i' => (i = fill -> i' = -1) /\ (i <> fill -> i' = i))) faces faces').
  Proof.
    rewrite cast_faces_spec. destruct (existsb _ _) eqn:E.
    - left. split; auto. apply existsb_exists in E as (f & Hi & H). apply Z.ltb_lt in H.
      apply Exists_exists. eauto.
    - right. split.
      + apply Forall_forall. intros f Hi. destruct (Z_le_gt_dec (zlen f) 32); auto. exfalso.
        apply not_true_iff_false in E. apply E. apply existsb_exists. exists f. split; auto. apply Z.ltb_lt. lia.
      + eexists. split; auto. clear. induction faces as [|f l IH]; simpl; constructor; auto.
        unfold with_fill. induction f as [|i f IHf]; simpl; constructor; auto.
        destruct (Z.eqb_spec i fill); split; congruence.
  Qed.

  Theorem C34_padding_polygon (vs : list (point T)) g face k :
    (3 <= length face)%nat -> (length face + k <= 32)%nat ->
    Forall (fun i => 0 <= i < Z.of_nat (length vs)) face ->
    polygon_length (face ++ repeat (-1) k) = length face
    /\ bounding_box (face ++ repeat (-1) k) vs = bounding_box face vs
    /\ (exists poly, copy_vertices g vs (face ++ repeat (-1) k) = Ok poly
          /\ copy_vertices g vs face = Ok poly /\ length poly = length face)
    /\ exists face', ccw_face vs face = Ok face'
         /\ ccw_face vs (face ++ repeat (-1) k) = Ok (face' ++ repeat (-1) k).
  Proof.
    intros H3 H32 Hr.
    assert (Hp : Forall (fun i => 0 <= i) face) by (eapply Forall_impl; [|exact Hr]; simpl; intros; lia).
    assert (Hf : Forall (fun i => i = -1) (repeat (-1) k)).
    { apply Forall_forall. intros x Hx. now apply repeat_spec in Hx. }
    assert (E : until_fill (face ++ repeat (-1) k) = face).
    { rewrite until_fill_app, until_fill_fills by auto. apply app_nil_r. }
    assert (E0 : until_fill face = face).
    { rewrite <- (app_nil_r face) at 1. rewrite until_fill_app by auto. apply app_nil_r. }
    split; [now apply polygon_length_pad|]. split; [|split].
    - rewrite bounding_box_until; rewrite E; auto; lia.
    - destruct (poly_exists vs face) as (poly & Hpoly); [now rewrite E0|].
      exists poly. split; [|split].
      + apply copy_vertices_ok.
        * unfold wf_face. rewrite E. repeat split; auto.
          -- rewrite app_length, repeat_length. auto.
          -- rewrite skipn_app, skipn_all, Nat.sub_diag. exact Hf.
        * unfold poly_of in *. rewrite E. rewrite E0 in Hpoly. exact Hpoly.
      + apply copy_vertices_ok; auto. unfold wf_face. rewrite E0. repeat split; auto; [lia|].
        rewrite skipn_all. constructor.
      + apply poly_of_length in Hpoly. now rewrite E0 in Hpoly.
    - destruct (ccw_face_pad vs face H3 Hr) as (r & _ & H). exists r.
      pose proof (H [] (Forall_nil _)) as H0. rewrite !app_nil_r in H0. auto.
  Qed.

  Theorem C34_padding_irrelevant g (vs : list (point T)) faces fill faces' fill' nb cpl :
    mesh_ok vs faces fill -> mesh_ok vs faces' fill' ->
    Forall2 (fun f f' => until_fill (with_fill fill f) = until_fill (with_fill fill' f')) faces faces' ->
    match CellTree2d_init g vs faces fill nb cpl, CellTree2d_init g vs faces' fill' nb cpl with
    | Ok t, Ok t' =>
        nodes (celltree_data t) = nodes (celltree_data t')
        /\ bb_indices (celltree_data t) = bb_indices (celltree_data t')
        /\ bb_coords (celltree_data t) = bb_coords (celltree_data t')
        /\ bbox (celltree_data t) = bbox (celltree_data t')
        /\ bb_dist t = bb_dist t'
        /\ Forall2 (fun f f' => until_fill f = until_fill f')
                   (elements (celltree_data t)) (elements (celltree_data t'))
    | Err e, Err e' => e = e'
    | _, _ => False
    end.
  Proof.
    intros H H'. apply padding_irrelevant; [apply (mo_faces _ _ _ H)|apply (mo_faces _ _ _ H')].
  Qed.
End Any.

Open Scope R_scope.

(** ** C30: triangle weights *)
Theorem C30_triangle_weights a b c p : orient a b c <> 0 ->
  exists u v w, triangle_weights a b c p = Ok (u, v, w) /\ u + v + w = 1
    /\ (in_triangle a b c p ->
        0 <= u /\ 0 <= v /\ 0 <= w
        /\ p = Pt (u * px a + v * px b + w * px c) (u * py a + v * py b + w * py c)).
Proof.
  intros Hn. destruct (triangle_weights_spec a b c p Hn) as (u & v & w & E & Hs & Hv & Hw & H).
  exists u, v, w. split; auto. split; auto. intros Hi. destruct (H Hi) as (Hu & Ex & Ey).
  do 3 (split; auto). now apply RBase.pt_eq.
Qed.

Theorem C30_degenerate_raises a b c p :
  orient a b c = 0 -> triangle_weights a b c p = Err EZeroDiv.
Proof. apply triangle_weights_degenerate. Qed.

(** ** C42: point_in_triangle *)
Theorem C42_inside_passes a b c p tol : orient a b c <> 0 ->
  inside_triangle a b c p -> point_in_triangle p a b c tol = true.
Proof. apply point_in_triangle_inside. Qed.

Theorem C42_passing_is_near a b c p tol : 0 <= tol -> orient a b c <> 0 ->
  point_in_triangle p a b c tol = true ->
  in_triangle a b c p \/ near_segment (2 * tol) a b p \/ near_segment (2 * tol) b c p
  \/ near_segment (2 * tol) c a p.
Proof. apply point_in_triangle_sound. Qed.

Theorem C42_degenerate_refuted tol : exists a b c p,
  point_in_triangle p a b c tol = true /\ a <> b /\ b <> c /\ c <> a
  /\ forall q, in_triangle a b c q -> 100 <= dist2 p q.
Proof. apply point_in_triangle_degenerate. Qed.

(** ** C43: default tolerance *)
Definition diagonal (b : bx) : R :=
  sqrt ((xmax b - xmin b) * (xmax b - xmin b) + (ymax b - ymin b) * (ymax b - ymin b)).

Lemma py_max_spec (l : list R) m : py_max l = Ok m ->
  In m l /\ forall x, In x l -> x <= m.
Proof.
  destruct l as [|x t]; cbn [py_max]; intros E; inversion E; clear E.
  clear H0. revert x. induction t as [|y t IH]; intros x.
  - simpl. split; auto. intros z [->|[]]; lra.
  - cbn [fold_left]. destruct (IH (nmax x y)) as (H1 & H2).
    assert (Hm : nmax x y = x \/ nmax x y = y) by (unfold nmax; destruct (nltb x y); auto).
    assert (Hx : x <= nmax x y /\ y <= nmax x y) by (unfold nmax; rsimp; rcase; lra).
    split.
    + destruct H1 as [H1|H1]; [|now right; right]. rewrite <- H1. destruct Hm as [-> | ->]; simpl; auto.
    + intros z [Hz|[Hz|Hz]].
      * subst z. apply Rle_trans with (nmax x y); [lra|]. apply H2. now left.
      * subst z. apply Rle_trans with (nmax x y); [lra|]. apply H2. now left.
      * apply H2. now right.
Qed.

Theorem C43_default_tolerance (t : tree2d (T:=R)) tol :
  bb_dist t = bbox_distances (bb_coords (celltree_data t)) ->
  get_tolerance t None = Ok tol ->
  / 10 ^ 15 <= tol
  /\ (forall b, In b (bb_coords (celltree_data t)) -> / 10 ^ 12 * diagonal b <= tol)
  /\ (tol = / 10 ^ 15 \/ exists b, In b (bb_coords (celltree_data t)) /\ tol = / 10 ^ 12 * diagonal b).
Proof.
  intros Hd E. cbn [get_tolerance] in E. rewrite Hd in E. unfold default_tolerance in E. inv_bind E.
  apply py_max_spec in Hb. destruct Hb as (Hin & Hle). inversion Hk; subst tol. clear Hk.
  unfold bbox_distances in *. rewrite map_map in *.
  assert (E15 : / 10 ^ 15 = / 1000000000000000) by (apply f_equal; simpl; lra).
  assert (E12 : / 10 ^ 12 = / 1000000000000) by (apply f_equal; simpl; lra).
  rewrite E15, E12.
  apply in_map_iff in Hin as (b & Eb & Hb). unfold bbox_distance in Eb. cbn [snd] in Eb.
  assert (Ediag : v = diagonal b) by (rewrite <- Eb; reflexivity).
  assert (Hall : forall b', In b' (bb_coords (celltree_data t)) -> diagonal b' <= v).
  { intros b' Hb'. apply Hle. apply in_map_iff. exists b'. split; auto. }
  unfold nmax. rsimp. split; [rcase; lra|]. split.
  - intros b' Hb'. specialize (Hall b' Hb').
    assert (H : / 1000000000000 * diagonal b' <= / 1000000000000 * v) by (apply Rmult_le_compat_l; lra).
    rcase; lra.
  - rcase; [right|left; lra]. exists b. split; auto. now rewrite Ediag.
Qed.

(** the hypothesis of C43 holds for constructed trees *)
Theorem C43_default_tolerance_constructed g vs faces fill nb cpl (t : tree2d (T:=R)) :
  mesh_ok vs faces fill -> CellTree2d_init g vs faces fill nb cpl = Ok t ->
  exists tol, get_tolerance t None = Ok tol /\ / 10 ^ 15 <= tol
  /\ (forall b, In b (bb_coords (celltree_data t)) -> / 10 ^ 12 * diagonal b <= tol)
  /\ (tol = / 10 ^ 15 \/ exists b, In b (bb_coords (celltree_data t)) /\ tol = / 10 ^ 12 * diagonal b).
Proof.
  intros Hm E. pose proof (init_built _ _ _ _ _ _ _ Hm E) as Hb.
  destruct (get_tolerance_ok t None (bt_dist _ _ _ _ _ Hb) (built_valid _ _ _ _ _ Hb)) as (tol & Et).
  exists tol. split; auto. apply C43_default_tolerance; auto. apply (bt_dist _ _ _ _ _ Hb).
Qed.

(** ** Concrete cases *)
Open Scope Z_scope.

(** box 0 overlaps four faces; box 1 overlaps the bounding boxes of the two
    triangles 5 and 6 but has no area in common with the second *)
Definition query_boxes : list (box b64) :=
  [Box nhalf (nofZ 2) nhalf (nofZ 2); Box (bf 5 (-1)) (nofZ 3) (nofZ 1) (bf 5 (-2))].
Example C26_example t : CellTree2d_init (T:=b64) g0 grid grid_faces (-1) 4 2 = Ok t ->
  exists pairs rows, CellTree2d_locate_boxes g0 2 t query_boxes = Ok pairs
    /\ CellTree2d_intersect_boxes g0 2 t query_boxes = Ok rows
    /\ zlen pairs = 6 /\ zlen rows = 5.
Proof.
  intros E.
  assert (H : match CellTree2d_init (T:=b64) g0 grid grid_faces (-1) 4 2 with
              | Ok t => match CellTree2d_locate_boxes g0 2 t query_boxes,
                              CellTree2d_intersect_boxes g0 2 t query_boxes with
                        | Ok p, Ok r => (zlen p =? 6) && (zlen r =? 5)
                        | _, _ => false end
              | Err _ => false end = true) by (vm_compute; reflexivity).
  rewrite E in H. destruct (CellTree2d_locate_boxes _ _ _ _) as [p|]; [|discriminate].
  destruct (CellTree2d_intersect_boxes _ _ _ _) as [r|]; [|discriminate].
  apply andb_prop in H as (A & B). exists p, r. repeat split; auto; now apply Z.eqb_eq.
Qed.

(** one triangle of the grid overlaps the faces of the grid itself *)
Example C26_faces_example t : CellTree2d_init (T:=b64) g0 grid grid_faces (-1) 4 2 = Ok t ->
  exists rows, CellTree2d_intersect_faces g0 2 t grid [[0; 2; 10; 99]] 99 = Ok rows /\ zlen rows = 3.
Proof.
  intros E.
  assert (H : match CellTree2d_init (T:=b64) g0 grid grid_faces (-1) 4 2 with
              | Ok t => match CellTree2d_intersect_faces g0 2 t grid [[0; 2; 10; 99]] 99 with
                        | Ok r => zlen r | _ => -1 end
              | Err _ => -1 end = 3) by (vm_compute; reflexivity).
  rewrite E in H. destruct (CellTree2d_intersect_faces _ _ _ _ _ _) as [r|]; [|discriminate].
  eauto.
Qed.

Definition query_points : list (point b64) :=
  [Pt nhalf nhalf; Pt (nofZ 9) (nofZ 9); Pt (bf 11 (-2)) (bf 5 (-2))].
Example C33_example t : CellTree2d_init (T:=b64) g0 grid grid_faces (-1) 4 2 = Ok t ->
  exists js ws, CellTree2d_compute_barycentric_weights g0 t 4 query_points None = Ok (js, ws)
    /\ js = [0; -1; 5].
Proof.
  intros E.
  assert (H : match CellTree2d_init (T:=b64) g0 grid grid_faces (-1) 4 2 with
              | Ok t => match CellTree2d_compute_barycentric_weights g0 t 4 query_points None with
                        | Ok (js, _) => js | _ => [] end
              | Err _ => [] end = [0; -1; 5]) by (vm_compute; reflexivity).
  rewrite E in H. destruct (CellTree2d_compute_barycentric_weights _ _ _ _ _) as [(js, ws)|]; [|discriminate].
  eauto.
Qed.

(** the grid with another fill value and one more column *)
Definition padded_faces : list (list Z) :=
  map (fun f => map (fun i => if i =? -1 then 100 else i) f ++ [100]) grid_faces.
Example C34_example : mesh_ok (T:=b64) grid padded_faces 100
  /\ Forall2 (fun f f' => until_fill (with_fill (-1) f) = until_fill (with_fill 100 f')) grid_faces padded_faces.
Proof.
  split.
  - constructor; [repeat constructor|discriminate|]. repeat constructor; simpl; lia.
  - repeat constructor.
Qed.

Open Scope R_scope.
Example C30_example : in_triangle (Pt 0 0) (Pt 4 0) (Pt 0 4) (Pt 1 2)
  /\ orient (Pt 0 0) (Pt 4 0) (Pt 0 4) <> 0
  /\ inside_triangle (Pt 0 0) (Pt 4 0) (Pt 0 4) (Pt 1 2).
Proof.
  split; [|split].
  - exists (1/4), (1/4), (1/2). cbn. repeat split; lra.
  - unfold orient. cbn. lra.
  - exists (1/4), (1/4), (1/2). cbn. repeat split; lra.
Qed.

(** a point just outside the triangle passes because of the tolerance *)
Example C42_example : orient (Pt 0 0) (Pt 4 0) (Pt 0 4) <> 0
  /\ point_in_triangle (Pt 1 (-1/10)) (Pt 0 0) (Pt 4 0) (Pt 0 4) (1/2) = true
  /\ ~ in_triangle (Pt 0 0) (Pt 4 0) (Pt 0 4) (Pt 1 (-1/10)).
Proof.
  split; [unfold orient; cbn; lra|]. split.
  - unfold point_in_triangle, within_perpendicular_distance, in_bounds, length_squared, cross_product, to_vector, nmin, nmax.
    rsimp.
    repeat match goal with
           | |- context [Rlt_bool ?a ?b] => first [rewrite (Rlt_bool_true a b) by lra | rewrite (Rlt_bool_false a b) by lra]
           end.
    cbn [Bool.eqb andb orb].
    replace (4 - 0) with 4 by lra. replace (0 - 0) with 0 by lra.
    rewrite Rabs_R0, (Rabs_pos_eq 4) by lra.
    rewrite !Rle_bool_true by lra. reflexivity.
  - intros (u & v & w & Hu & Hv & Hw & E & Ex & Ey). cbn in Ey. lra.
Qed.

Example C43_example : exists t tol, CellTree2d_init (T:=R) g0 grid grid_faces (-1) 4 2 = Ok t
  /\ get_tolerance t None = Ok tol.
Proof.
  destruct C04_example as (t & E). exists t.
  destruct (C43_default_tolerance_constructed _ _ _ _ _ _ _ grid_mesh_R E) as (tol & H & _). eauto.
Qed.

Print Assumptions C26_intersect_boxes_positive.
Print Assumptions C26_intersect_faces_positive.
Print Assumptions C30_triangle_weights.
Print Assumptions C33_weight_rows.
Print Assumptions C34_padding_polygon.
Print Assumptions C34_padding_irrelevant.
Print Assumptions C42_passing_is_near.
Print Assumptions C43_default_tolerance_constructed.
