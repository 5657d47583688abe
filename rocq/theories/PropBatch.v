(** C72: asking many queries at once, or in several calls. *)
From Verif Require Import Base Num MUtils MGeometry MCreation MAlgorithms MQuery MCelltree
  SpecTree PPartition PBuild PWalk PCollect SpecQuery PQuery PMesh PInit SpecApi PPoints PApi PEdges PEdgesAny PFaces PBatch.
From Coq Require Import Reals.
From Flocq Require Import BinarySingleNaN.
From Verif Require Import NumR NumB64 NumSub PBuild Examples.
Local Open Scope Z_scope.

(** the rows of the second call, its queries numbered after the [k] queries of the first *)
Definition later (k : Z) (r : Z * Z) : Z * Z := (k + fst r, snd r).
Definition later_row {X} (k : Z) (r : (Z * Z) * X) : (Z * Z) * X := (later k (fst r), snd r).

(** one call after the other; the first error ends both *)
Definition then_ {A} (k : Z) (shift : Z -> A -> A) (m1 m2 : res (list A)) : res (list A) :=
  match m1, m2 with
  | Err e, _ => Err e
  | _, Err e => Err e
  | Ok r1, Ok r2 => Ok (r1 ++ map (shift k) r2)
  end.
Definition unshifted {A} (_ : Z) (x : A) : A := x.

(** ** lists *)
Lemma mapres_app {A B} (f : A -> res B) a b :
  mapres f (a ++ b) = (let* x := mapres f a in let* y := mapres f b in Ok (x ++ y)).
Proof.
  induction a as [|x a IH]; cbn [app mapres].
  - cbn [bind]. now destruct (mapres f b).
  - destruct (f x) as [y|]; [|reflexivity]. cbn [bind]. rewrite IH. destruct (mapres f a) as [ys|]; [|reflexivity]. cbn [bind].
    now destruct (mapres f b).
Qed.
Lemma mapres_ext {A B} (f f' : A -> res B) l : (forall x, In x l -> f x = f' x) -> mapres f l = mapres f' l.
Proof. induction l as [|x l IH]; intros H; auto. cbn [mapres]. rewrite (H x) by now left. rewrite IH; auto. intros y Hy. apply H. now right. Qed.
Lemma mapres_map {A A' B} (h : A -> A') (f : A' -> res B) l : mapres f (map h l) = mapres (fun x => f (h x)) l.
Proof. induction l as [|x l IH]; auto. cbn [map mapres]. now rewrite IH. Qed.

Lemma aget_app_l {A} (a b : list A) i : 0 <= i < zlen a -> aget (a ++ b) i = aget a i.
Proof.
  intros H. destruct (aget_ok_pos a i H) as (x & E & En). rewrite E. apply aget_pos; [lia|].
  rewrite nth_error_app1; auto. unfold zlen in H. lia.
Qed.
Lemma aget_app_r {A} (a b : list A) i : 0 <= i < zlen b -> aget (a ++ b) (zlen a + i) = aget b i.
Proof.
  intros H. destruct (aget_ok_pos b i H) as (x & E & En). rewrite E. unfold zlen in *. apply aget_pos; [lia|].
  rewrite nth_error_app2 by lia. rewrite <- En. f_equal. lia.
Qed.

Lemma iota_app n m : iota (n + m) = iota n ++ map (fun k => Z.of_nat n + k) (iota m).
Proof.
  unfold iota. rewrite seq_app, map_app. f_equal. cbn [Nat.add]. rewrite map_map.
  replace n with (n + 0)%nat at 1 by lia. generalize 0%nat. induction m as [|m IH]; intros s; cbn [seq map]; auto.
  f_equal; [lia|]. rewrite <- IH. f_equal. f_equal. lia.
Qed.

Lemma mask_app {A} (a b : list A) m m' : length a = length m -> mask (a ++ b) (m ++ m') = mask a m ++ mask b m'.
Proof.
  unfold mask. revert m. induction a as [|x a IH]; intros [|[|] m] H; try discriminate; auto; cbn [app combine filter snd map fst].
  - f_equal. auto.
  - auto.
Qed.
Lemma mask_shift {A} (h : A -> A) (a : list A) m : mask (map h a) m = map h (mask a m).
Proof.
  unfold mask. revert m. induction a as [|x a IH]; intros [|[|] m]; auto; cbn [combine map filter snd fst].
  - f_equal. auto.
  - auto.
Qed.

Section Any.
  Context {T : Type} {NT : Num T} {NO : NumOrd T} {NZ : NumZero T} {NS : NumSub T}.
  Notation point := (point T).
  Notation box := (box T).

  Lemma keep_lengths {A} (l : list A) (area : list T) : length l = length area ->
    length (mask l (map (fun x => nltb (nofZ 0) x) area)) = length (mask area (map (fun x => nltb (nofZ 0) x) area)).
  Proof.
    unfold mask. revert area. induction l as [|x l IH]; intros [|a area] H; try discriminate; auto.
    cbn [map combine filter snd]. injection H as H. specialize (IH _ H). destruct (nltb (nofZ 0) a); cbn [map length]; auto.
  Qed.
  Lemma combine_app' {A B} (a b : list A) (c d : list B) : length a = length c -> combine (a ++ b) (c ++ d) = combine a c ++ combine b d.
  Proof. revert c. induction a as [|x a IH]; intros [|y c] H; try discriminate; auto. cbn. f_equal. auto. Qed.

  (** the areas of the pairs, and the rows with a positive one *)
  Definition kept (l : list (Z * Z)) (area : list T) : list ((Z * Z) * T) :=
    combine (mask l (map (fun x => nltb (nofZ 0) x) area)) (mask area (map (fun x => nltb (nofZ 0) x) area)).

  Lemma kept_batch k F F1 F2 (r1 r2 : list (Z * Z)) :
    (forall x, In x r1 -> F x = F1 x) -> (forall x, In x r2 -> F (later k x) = F2 x) ->
    (let* area := mapres F (r1 ++ map (later k) r2) in Ok (kept (r1 ++ map (later k) r2) area))
    = then_ k later_row (let* area := mapres F1 r1 in Ok (kept r1 area)) (let* area := mapres F2 r2 in Ok (kept r2 area)).
  Proof.
    intros H1 H2. rewrite mapres_app, mapres_map, (mapres_ext F F1 r1 H1), (mapres_ext (fun x => F (later k x)) F2 r2 H2).
    destruct (mapres F1 r1) as [a1|] eqn:E1; [|reflexivity]. cbn [bind].
    destruct (mapres F2 r2) as [a2|] eqn:E2; [|reflexivity]. cbn [bind then_].
    assert (L1 : length r1 = length a1) by (symmetry; eapply mapres_length; eauto).
    f_equal. unfold kept. rewrite map_app, !mask_app, mask_shift, combine_app' by (rewrite ?map_length; auto using keep_lengths).
    f_equal. generalize (mask r2 (map (fun x => nltb (nofZ 0) x) a2)) (mask a2 (map (fun x => nltb (nofZ 0) x) a2)).
    clear. intros l. induction l as [|x l IH]; intros [|y l']; cbn; auto. now rewrite IH.
  Qed.

  (** ** C72: points *)
  Theorem C72_locate_points g (t : tree2d (T:=T)) l1 l2 tol :
    CellTree2d_locate_points g t (l1 ++ l2) tol
      = then_ (zlen l1) unshifted (CellTree2d_locate_points g t l1 tol) (CellTree2d_locate_points g t l2 tol)
    /\ EdgeCellTree2d_locate_points g t (l1 ++ l2) tol
      = then_ (zlen l1) unshifted (EdgeCellTree2d_locate_points g t l1 tol) (EdgeCellTree2d_locate_points g t l2 tol).
  Proof.
    unfold CellTree2d_locate_points, EdgeCellTree2d_locate_points, locate_points, locate_points_on_edge, then_.
    destruct (get_tolerance t tol) as [x|]; [|split; reflexivity]. cbn [bind]. rewrite !mapres_app.
    split; (destruct (mapres _ l1); [|reflexivity]); (destruct (mapres _ l2); [|reflexivity]); cbn [bind]; unfold unshifted; now rewrite map_id.
  Qed.

  Theorem C72_weights g vs faces fill nb cpl (t : tree2d (T:=T)) :
    mesh_ok vs faces fill -> CellTree2d_init g vs faces fill nb cpl = Ok t ->
    forall g m l1 l2 tol,
    CellTree2d_compute_barycentric_weights g t m (l1 ++ l2) tol =
    match CellTree2d_compute_barycentric_weights g t m l1 tol, CellTree2d_compute_barycentric_weights g t m l2 tol with
    | Err e, _ => Err e
    | _, Err e => Err e
    | Ok (f1, w1), Ok (f2, w2) => Ok (f1 ++ f2, w1 ++ w2)
    end.
  Proof.
    intros M E. pose proof (init_built _ _ _ _ _ _ _ M E) as Hb. clear g E. intros g m l1 l2 tolerance.
    destruct (points_result _ _ _ _ _ tolerance Hb) as (tol & Et & HP).
    unfold CellTree2d_compute_barycentric_weights. rewrite Et. cbn [bind].
    destruct (points_result _ _ _ _ _ (Some tol) Hb) as (tol' & Et' & HP'). injection Et' as <-.
    destruct (HP' l1) as (f1 & E1 & F1). destruct (HP' l2) as (f2 & E2 & F2).
    pose proof (proj1 (C72_locate_points g t l1 l2 (Some tol))) as E12. rewrite E1, E2 in E12. cbn [then_] in E12.
    unfold unshifted in E12. rewrite map_id in E12. rewrite E12, E1, E2. cbn [bind]. clear E1 E2 E12 HP HP'.
    pose proof (F2_length _ _ _ F1) as N1. pose proof (F2_length _ _ _ F2) as N2. clear F1 F2.
    (* one point at a time *)
    assert (W : forall one : point * Z -> res (list T),
      (let* w := mapres (fun i => let* f := aget (f1 ++ f2) i in let* p := aget (l1 ++ l2) i in one (p, f)) (iota (length (l1 ++ l2))) in Ok (f1 ++ f2, w))
      = match (let* w := mapres (fun i => let* f := aget f1 i in let* p := aget l1 i in one (p, f)) (iota (length l1)) in Ok (f1, w)),
              (let* w := mapres (fun i => let* f := aget f2 i in let* p := aget l2 i in one (p, f)) (iota (length l2)) in Ok (f2, w)) with
        | Err e, _ => Err e
        | _, Err e => Err e
        | Ok (f1, w1), Ok (f2, w2) => Ok (f1 ++ f2, w1 ++ w2)
        end).
    { intros one. rewrite app_length, iota_app, mapres_app, mapres_map.
      rewrite (mapres_ext _ (fun i => let* f := aget f1 i in let* p := aget l1 i in one (p, f)) (iota (length l1))).
      2:{ intros i Hi. apply iota_in in Hi. rewrite !aget_app_l by (unfold zlen; lia). reflexivity. }
      rewrite (mapres_ext _ (fun i => let* f := aget f2 i in let* p := aget l2 i in one (p, f)) (iota (length l2))).
      2:{ intros i Hi. apply iota_in in Hi. fold (zlen l1). rewrite aget_app_r by (unfold zlen; lia).
          replace (zlen l1) with (zlen f1) by (unfold zlen; lia). rewrite aget_app_r by (unfold zlen; lia). reflexivity. }
      destruct (mapres _ (iota (length l1))); [|reflexivity]. cbn [bind]. destruct (mapres _ (iota (length l2))); reflexivity. }
    unfold barycentric_wachspress_weights, barycentric_triangle_weights. destruct (3 <? m)%nat; apply W.
  Qed.

  (** ** C72: boxes *)
  Lemma boxes_in (t : tree2d (T:=T)) g n l rows : valid_tree (celltree_data t) -> (1 <= n)%nat ->
    locate_boxes g l (celltree_data t) n = Ok rows -> forall x, In x rows -> 0 <= fst x < zlen l.
  Proof.
    intros Hv Hn E (i, j) Hx. destruct (boxes_result t l Hv) as (rows' & R & _ & I & _). specialize (R g n Hn).
    unfold CellTree2d_locate_boxes in R. rewrite E in R. injection R as ->. apply I in Hx as (a & b & H0 & _ & Ea & _).
    cbn [fst]. apply nth_error_range in Ea; auto.
  Qed.

  Theorem C72_boxes g vs faces fill nb cpl (t : tree2d (T:=T)) :
    mesh_ok vs faces fill -> CellTree2d_init g vs faces fill nb cpl = Ok t ->
    forall g n n1 n2 l1 l2, (1 <= n)%nat -> (1 <= n1)%nat -> (1 <= n2)%nat ->
    (exists r1 r2, CellTree2d_locate_boxes g n1 t l1 = Ok r1 /\ CellTree2d_locate_boxes g n2 t l2 = Ok r2
       /\ CellTree2d_locate_boxes g n t (l1 ++ l2) = Ok (r1 ++ map (later (zlen l1)) r2))
    /\ CellTree2d_intersect_boxes g n t (l1 ++ l2)
       = then_ (zlen l1) later_row (CellTree2d_intersect_boxes g n1 t l1) (CellTree2d_intersect_boxes g n2 t l2).
  Proof.
    intros M E. pose proof (built_valid _ _ _ _ _ (init_built _ _ _ _ _ _ _ M E)) as Hv. clear g E. intros g n n1 n2 l1 l2 Hn Hn1 Hn2.
    destruct (boxes_batch _ Hv g g g n n1 n2 l1 l2 Hn Hn1 Hn2) as (r1 & r2 & E1 & E2 & E12).
    split; [exists r1, r2; auto|].
    unfold CellTree2d_intersect_boxes. rewrite E1, E2, E12. cbn [bind]. unfold box_area_of_intersection.
    apply (kept_batch (zlen l1)).
    - intros x Hx. unfold box_area_one. rewrite aget_app_l; auto. exact (boxes_in t _ _ _ _ Hv Hn1 E1 x Hx).
    - intros x Hx. unfold box_area_one, later. cbn [fst snd]. rewrite aget_app_r; auto. exact (boxes_in t _ _ _ _ Hv Hn2 E2 x Hx).
  Qed.

  (** ** C72: faces *)
  Theorem C72_locate_faces g vs faces fill nb cpl (t : tree2d (T:=T)) :
    mesh_ok vs faces fill -> CellTree2d_init g vs faces fill nb cpl = Ok t ->
    forall g n n1 n2 ws l1 l2, faces_ok ws (l1 ++ l2) -> (1 <= n)%nat -> (1 <= n1)%nat -> (1 <= n2)%nat ->
    exists r1 r2 q1 q2, CellTree2d_locate_faces g n1 t ws l1 = Ok (r1, q1) /\ CellTree2d_locate_faces g n2 t ws l2 = Ok (r2, q2)
       /\ CellTree2d_locate_faces g n t ws (l1 ++ l2) = Ok (r1 ++ map (later (zlen l1)) r2, q1 ++ q2)
       /\ length q1 = length l1 /\ length q2 = length l2
       /\ (forall x, In x r1 -> 0 <= fst x < zlen l1) /\ (forall x, In x r2 -> 0 <= fst x < zlen l2).
  Proof.
    intros M E g0 n n1 n2 ws l1 l2 W Hn Hn1 Hn2. pose proof (built_valid _ _ _ _ _ (init_built _ _ _ _ _ _ _ M E)) as Hv.
    destruct (locate_faces_result _ _ _ _ _ _ _ M E ws (l1 ++ l2) W) as (r & q & _ & R & _). specialize (R g0 n Hn).
    assert (W1 : faces_ok ws l1) by (destruct W as (V & F); split; auto; now apply Forall_app in F).
    assert (W2 : faces_ok ws l2) by (destruct W as (V & F); split; auto; now apply Forall_app in F).
    destruct (locate_faces_result _ _ _ _ _ _ _ M E ws l1 W1) as (r1 & q1 & _ & R1 & _). specialize (R1 g0 n1 Hn1).
    destruct (locate_faces_result _ _ _ _ _ _ _ M E ws l2 W2) as (r2 & q2 & _ & R2 & _). specialize (R2 g0 n2 Hn2).
    exists r1, r2, q1, q2. split; [exact R1|]. split; [exact R2|]. rewrite R.
    unfold CellTree2d_locate_faces in R, R1, R2. unfold counter_clockwise in *. rewrite mapres_app in R.
    destruct (mapres (ccw_face ws) l1) as [c1|] eqn:C1; [|discriminate]. destruct (mapres (ccw_face ws) l2) as [c2|] eqn:C2; [|discriminate].
    cbn [bind] in R, R1, R2. unfold build_face_bboxes in *. rewrite mapres_app in R.
    destruct (mapres _ c1) as [b1|] eqn:B1; [|discriminate]. destruct (mapres _ c2) as [b2|] eqn:B2; [|discriminate].
    cbn [bind] in R, R1, R2.
    destruct (boxes_batch _ Hv g0 g0 g0 n n1 n2 b1 b2 Hn Hn1 Hn2) as (s1 & s2 & E1 & E2 & E12).
    rewrite E1 in R1. rewrite E2 in R2. rewrite E12 in R. cbn [bind] in R, R1, R2.
    pose proof (mapres_length _ _ _ C1) as LC1. pose proof (mapres_length _ _ _ B1) as LB1.
    pose proof (mapres_length _ _ _ C2) as LC2. pose proof (mapres_length _ _ _ B2) as LB2.
    pose proof (boxes_in t _ _ _ _ Hv Hn1 E1) as I1. pose proof (boxes_in t _ _ _ _ Hv Hn2 E2) as I2.
    unfold polygons_intersect in *. rewrite mapres_app in R. fold (later (zlen b1)) in R. rewrite mapres_map in R.
    rewrite (mapres_ext _ (polygons_intersect_one g0 ws (vertices (celltree_data t)) c1 (elements (celltree_data t))) s1) in R.
    2:{ intros x Hx. unfold polygons_intersect_one. rewrite aget_app_l; auto. specialize (I1 x Hx). unfold zlen in *. lia. }
    rewrite (mapres_ext _ (polygons_intersect_one g0 ws (vertices (celltree_data t)) c2 (elements (celltree_data t))) s2) in R.
    2:{ intros x Hx. unfold polygons_intersect_one, later. cbn [fst snd]. replace (zlen b1) with (zlen c1) by (unfold zlen; lia).
        rewrite aget_app_r; auto. specialize (I2 x Hx). unfold zlen in *. lia. }
    destruct (mapres _ s1) as [m1|] eqn:P1; [|discriminate]. destruct (mapres _ s2) as [m2|] eqn:P2; [|discriminate].
    cbn [bind] in R, R1, R2. injection R as <- <-. injection R1 as <- <-. injection R2 as <- <-.
    rewrite mask_app by (symmetry; eapply mapres_length; eauto).
    change (fun r : Z * Z => (zlen b1 + fst r, snd r)) with (later (zlen b1)). rewrite mask_shift.
    replace (zlen b1) with (zlen l1) by (unfold zlen; lia).
    split; [reflexivity|]. split; [lia|]. split; [lia|].
    assert (IM : forall (l : list (Z * Z)) m x, In x (mask l m) -> In x l).
    { intros l m x Hx. unfold mask in Hx. apply in_map_iff in Hx as ((y, b) & <- & Hy). apply filter_In in Hy as (Hy & _). cbn. eapply in_combine_l; eauto. }
    split; intros x Hx; apply IM in Hx; [specialize (I1 x Hx)|specialize (I2 x Hx)]; unfold zlen in *; lia.
  Qed.

  Theorem C72_intersect_faces g vs faces fill nb cpl (t : tree2d (T:=T)) :
    mesh_ok vs faces fill -> CellTree2d_init g vs faces fill nb cpl = Ok t ->
    forall g n n1 n2 ws l1 l2 fl, faces_ok ws (map (with_fill fl) (l1 ++ l2)) -> (1 <= n)%nat -> (1 <= n1)%nat -> (1 <= n2)%nat ->
    CellTree2d_intersect_faces g n t ws (l1 ++ l2) fl
    = then_ (zlen l1) later_row (CellTree2d_intersect_faces g n1 t ws l1 fl) (CellTree2d_intersect_faces g n2 t ws l2 fl).
  Proof.
    intros M E g0 n n1 n2 ws l1 l2 fl W Hn Hn1 Hn2. rewrite map_app in W.
    destruct (C72_locate_faces _ _ _ _ _ _ _ M E g0 n n1 n2 ws _ _ W Hn Hn1 Hn2) as (r1 & r2 & q1 & q2 & E1 & E2 & E12 & L1 & L2 & I1 & I2).
    assert (C : forall l, Forall (wf_face (length ws)) (map (with_fill fl) l) -> cast_faces l fl = Ok (map (with_fill fl) l)).
    { intros l Hl. apply cast_faces_ok. rewrite Forall_map in Hl. rewrite Forall_forall in *. intros f Hf. specialize (Hl f Hf).
      destruct Hl as (_ & Hl & _). revert Hl. unfold with_fill. rewrite map_length. auto. }
    pose proof (fo_faces _ _ W) as WF. apply Forall_app in WF as (WF1 & WF2).
    unfold CellTree2d_intersect_faces. rewrite (C l1 WF1), (C l2 WF2), (C (l1 ++ l2)) by (rewrite map_app; now apply Forall_app).
    cbn [bind]. rewrite map_app, E1, E2, E12. cbn [bind]. unfold area_of_intersection.
    replace (zlen (map (with_fill fl) l1)) with (zlen l1) in * by (unfold zlen; now rewrite map_length).
    replace (zlen (map (with_fill fl) l2)) with (zlen l2) in * by (unfold zlen; now rewrite map_length).
    rewrite map_length in L1, L2. apply (kept_batch (zlen l1)).
    - intros x Hx. unfold area_of_intersection_one. rewrite aget_app_l; auto. specialize (I1 x Hx). unfold zlen in *. lia.
    - intros x Hx. unfold area_of_intersection_one, later. cbn [fst snd]. replace (zlen l1) with (zlen q1) by (unfold zlen; lia).
      rewrite aget_app_r; auto. specialize (I2 x Hx). unfold zlen in *. lia.
  Qed.

  (** ** C72: edges *)
  Theorem C72_edge_faces g vs faces fill nb cpl (t : tree2d (T:=T)) :
    mesh_ok vs faces fill -> CellTree2d_init g vs faces fill nb cpl = Ok t ->
    forall csfuel g g1 g2 n n1 n2 l1 l2, (1 <= n)%nat -> (1 <= n1)%nat -> (1 <= n2)%nat ->
    CellTree2d_intersect_edges g csfuel n t (l1 ++ l2)
    = then_ (zlen l1) later_row (CellTree2d_intersect_edges g1 csfuel n1 t l1) (CellTree2d_intersect_edges g2 csfuel n2 t l2).
  Proof.
    intros M E. pose proof (bt_mesh _ _ _ _ _ (init_built _ _ _ _ _ _ _ M E)) as Ht. clear g E. intros csfuel g g1 g2 n n1 n2 l1 l2 Hn Hn1 Hn2.
    unfold CellTree2d_intersect_edges, locate_edge_faces.
    assert (Hf : forall h h' e a b, 0 <= e < zlen (bb_coords (celltree_data t)) ->
      compute_edge_face_intersect h csfuel (celltree_data t) e a b = compute_edge_face_intersect h' csfuel (celltree_data t) e a b).
    { intros h h' e a b He. destruct (face_clip_eq _ Ht e He) as (poly & K & _ & H). now rewrite !H. }
    etransitivity; [exact (edges_batch _ (mt_valid _ Ht) csfuel (fun g => compute_edge_face_intersect g csfuel (celltree_data t)) Hf g g1 g2 n n1 n2 l1 l2 Hn Hn1 Hn2)|].
    unfold then_. destruct (locate_edges g1 csfuel _ l1 _ n1); [|reflexivity]. destruct (locate_edges g2 csfuel _ l2 _ n2); reflexivity.
  Qed.

  Theorem C72_edge_edges g vs edges nb cpl (t : tree2d (T:=T)) :
    network_ok vs edges -> EdgeCellTree2d_init g vs edges nb cpl = Ok t ->
    forall csfuel g g1 g2 n n1 n2 l1 l2, (1 <= n)%nat -> (1 <= n1)%nat -> (1 <= n2)%nat ->
    EdgeCellTree2d_intersect_edges g csfuel n t (l1 ++ l2)
    = then_ (zlen l1) later_row (EdgeCellTree2d_intersect_edges g1 csfuel n1 t l1) (EdgeCellTree2d_intersect_edges g2 csfuel n2 t l2).
  Proof.
    intros M E. pose proof (built_edges_valid _ _ _ _ (init_built_edges _ _ _ _ _ _ M E)) as Hv. clear g E. intros csfuel g g1 g2 n n1 n2 l1 l2 Hn Hn1 Hn2.
    unfold EdgeCellTree2d_intersect_edges, locate_edge_edges.
    rewrite (edges_batch _ Hv csfuel (fun _ => compute_edge_edge_intersect (celltree_data t)) ltac:(auto) g g1 g2 n n1 n2 l1 l2 Hn Hn1 Hn2).
    unfold then_. destruct (locate_edges g1 csfuel _ l1 _ n1); [|reflexivity]. cbn [bind].
    destruct (locate_edges g2 csfuel _ l2 _ n2); [|reflexivity]. cbn [bind]. rewrite map_app, !map_map. reflexivity.
  Qed.

  (** ** C06: the number of threads and unwritten memory decide nothing, not even which error is raised *)
  Theorem C06_edge_outcomes_thread_independent :
    (forall g vs faces fill nb cpl (t : tree2d (T:=T)), mesh_ok vs faces fill -> CellTree2d_init g vs faces fill nb cpl = Ok t ->
       forall csfuel g1 g2 n1 n2 l, (1 <= n1)%nat -> (1 <= n2)%nat ->
       CellTree2d_intersect_edges g1 csfuel n1 t l = CellTree2d_intersect_edges g2 csfuel n2 t l)
    /\ (forall g vs edges nb cpl (t : tree2d (T:=T)), network_ok vs edges -> EdgeCellTree2d_init g vs edges nb cpl = Ok t ->
       forall csfuel g1 g2 n1 n2 l, (1 <= n1)%nat -> (1 <= n2)%nat ->
       EdgeCellTree2d_intersect_edges g1 csfuel n1 t l = EdgeCellTree2d_intersect_edges g2 csfuel n2 t l).
  Proof.
    split.
    - intros g vs faces fill nb cpl t M E csfuel g1 g2 n1 n2 l H1 H2. pose proof (bt_mesh _ _ _ _ _ (init_built _ _ _ _ _ _ _ M E)) as Ht.
      apply (edges_threads _ (mt_valid _ Ht) csfuel (fun g => compute_edge_face_intersect g csfuel (celltree_data t))); auto.
      intros h h' e a b He. destruct (face_clip_eq _ Ht e He) as (poly & K & _ & H). now rewrite !H.
    - intros g vs edges nb cpl t M E csfuel g1 g2 n1 n2 l H1 H2. pose proof (built_edges_valid _ _ _ _ (init_built_edges _ _ _ _ _ _ M E)) as Hv.
      unfold EdgeCellTree2d_intersect_edges, locate_edge_edges.
      now rewrite (edges_threads _ Hv csfuel (fun _ => compute_edge_edge_intersect (celltree_data t)) ltac:(auto) g1 g2 n1 n2 l H1 H2).
  Qed.
End Any.

(** ** C72: the hypotheses can be met, and the two calls find something *)
Definition first_boxes : list (box b64) := [Box (bf 1 (-1)) (bf 3 (-1)) (bf 1 (-1)) (bf 3 (-2)); Box (Zb 5) (Zb 6) (Zb 0) (Zb 1)].
Definition second_boxes : list (box b64) := [Box (bf 1 (-1)) (bf 5 (-1)) (bf 1 (-1)) (bf 3 (-1))].
Definition first_lines : list (point b64 * point b64) := [(Pt (bf 1 (-2)) (bf 1 (-2)), Pt (bf 5 (-1)) (bf 3 (-1)))].
Definition second_lines : list (point b64 * point b64) := [(Pt (Zb 9) (Zb 9), Pt (Zb 8) (Zb 9)); (Pt (bf 1 (-2)) (bf 3 (-1)), Pt (bf 3 (-1)) (bf 1 (-2)))].
Definition found {A} (m : res (list A)) : nat := match m with Ok l => length l | Err _ => 0 end.

Theorem C72_example : let faces1 := firstn 3 grid_faces in let faces2 := skipn 3 grid_faces in
  mesh_ok (T:=b64) grid grid_faces (-1) /\ faces_ok (T:=b64) grid (map (with_fill (-1)) (faces1 ++ faces2))
  /\ match CellTree2d_init (T:=b64) g0 grid grid_faces (-1) 4 2 with
     | Ok t =>
         found (CellTree2d_locate_boxes g0 3 t first_boxes) = 2%nat /\ found (CellTree2d_locate_boxes g0 3 t second_boxes) = 7%nat
         /\ found (CellTree2d_intersect_boxes g0 3 t (first_boxes ++ second_boxes)) = 9%nat
         /\ found (CellTree2d_intersect_faces g0 1 t grid faces1 (-1)) = 3%nat
         /\ found (CellTree2d_intersect_faces g0 2 t grid faces2 (-1)) = 4%nat
         /\ found (CellTree2d_intersect_edges g0 20 2 t first_lines) = 4%nat
         /\ found (CellTree2d_intersect_edges g0 20 2 t second_lines) = 3%nat
         (* and an error: the clipping loop is granted no rounds *)
         /\ (exists e, CellTree2d_intersect_edges g0 0 2 t (second_lines ++ first_lines) = Err e)
     | Err _ => False end
  /\ network_ok (T:=b64) grid pipes
  /\ match EdgeCellTree2d_init (T:=b64) g0 grid pipes 4 2 with
     | Ok t => found (EdgeCellTree2d_intersect_edges g0 20 2 t first_lines) = 4%nat
         /\ found (EdgeCellTree2d_intersect_edges g0 20 2 t second_lines) = 1%nat
     | Err _ => False end.
Proof.
  intros faces1 faces2. split; [exact grid_mesh_B64|]. split.
  { split; [repeat constructor|]. exact grid_faces_wf. }
  split; [vm_compute; repeat (split; [reflexivity|]); eexists; reflexivity|]. split; [exact pipes_network_B64|]. vm_compute. split; reflexivity.
Qed.

Print Assumptions C72_locate_points.
Print Assumptions C72_weights.
Print Assumptions C72_boxes.
Print Assumptions C72_locate_faces.
Print Assumptions C72_intersect_faces.
Print Assumptions C72_edge_faces.
Print Assumptions C72_edge_edges.
Print Assumptions C06_edge_outcomes_thread_independent.
Print Assumptions C72_example.
