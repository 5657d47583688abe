(** C38: parallel loops are schedule independent.
    C46: uninitialised memory does not influence results.

    No hypothesis is made on trees, meshes or queries; [rows0] is what the
    result array holds when the loop starts.  [G i] is the uninitialised
    memory met by iteration [i]; the sequential run has its own, [g]. *)
From Verif Require Import Base Num MUtils MGeometry MCreation MAlgorithms MQuery MCelltree
  MPar SpecPar PPar PGarbage PParLoops NumR NumB64 Examples.

Section C38.
  Context {T : Type} {NT : Num T}.
  Variable G : nat -> garbage T.
  Variable g : garbage T.

  Theorem C38_locate_points points tree (tolerance : T) rows0 :
    length rows0 = length points -> width 1 rows0 ->
    every_schedule (locate_points_body G points tree tolerance) rows0
      (let* ds := locate_points g points tree tolerance in Ok (map single ds)).
  Proof. exact (locate_points_schedules G g points tree tolerance rows0). Qed.

  Theorem C38_locate_points_on_edge points tree (tolerance : T) rows0 :
    length rows0 = length points -> width 1 rows0 ->
    every_schedule (locate_points_on_edge_body G points tree tolerance) rows0
      (let* ds := locate_points_on_edge g points tree tolerance in Ok (map single ds)).
  Proof. exact (locate_points_on_edge_schedules G g points tree tolerance rows0). Qed.

  Theorem C38_points_in_triangles points face_indices faces vertices (tolerance : T) rows0 :
    length rows0 = length points -> width 1 rows0 ->
    every_schedule (points_in_triangles_body points face_indices faces vertices tolerance) rows0
      (let* ds := points_in_triangles points face_indices faces vertices tolerance in Ok (map single ds)).
  Proof. exact (points_in_triangles_schedules points face_indices faces vertices tolerance rows0). Qed.

  Theorem C38_polygons_intersect (va vb : list (point T)) fa fb ij rows0 :
    length rows0 = length ij -> width 1 rows0 ->
    every_schedule (polygons_intersect_body G va vb fa fb ij) rows0
      (let* ds := polygons_intersect g va vb fa fb ij in Ok (map single ds)).
  Proof. exact (polygons_intersect_schedules G g va vb fa fb ij rows0). Qed.

  Theorem C38_area_of_intersection (va vb : list (point T)) fa fb ij rows0 :
    length rows0 = length ij -> width 1 rows0 ->
    every_schedule (area_of_intersection_body G va vb fa fb ij) rows0
      (let* ds := area_of_intersection g va vb fa fb ij in Ok (map single ds)).
  Proof. exact (area_of_intersection_schedules G g va vb fa fb ij rows0). Qed.

  Theorem C38_box_area_of_intersection (boxes : list (box T)) vs faces ij rows0 :
    length rows0 = length ij -> width 1 rows0 ->
    every_schedule (box_area_of_intersection_body G boxes vs faces ij) rows0
      (let* ds := box_area_of_intersection g boxes vs faces ij in Ok (map single ds)).
  Proof. exact (box_area_of_intersection_schedules G g boxes vs faces ij rows0). Qed.

  Theorem C38_build_face_bboxes faces (vertices : list (point T)) rows0 :
    length rows0 = length faces -> width 4 rows0 ->
    every_schedule (build_face_bboxes_body faces vertices) rows0
      (let* ds := build_face_bboxes faces vertices in
       Ok (map (fun b => [xmin b; xmax b; ymin b; ymax b]) ds)).
  Proof. exact (build_face_bboxes_schedules faces vertices rows0). Qed.

  Theorem C38_build_edge_bboxes edges vertices (tolerance : T) rows0 :
    length rows0 = length edges -> width 4 rows0 ->
    every_schedule (build_edge_bboxes_body edges vertices tolerance) rows0
      (let* ds := build_edge_bboxes edges vertices tolerance in
       Ok (map (fun b => [xmin b; xmax b; ymin b; ymax b]) ds)).
  Proof. exact (build_edge_bboxes_schedules edges vertices tolerance rows0). Qed.

  (** np.zeros((n_points, 3)) *)
  Theorem C38_triangle_weights points face_indices faces (vertices : list (point T)) :
    every_schedule (triangle_weights_body points face_indices faces vertices)
      (repeat [nofZ 0; nofZ 0; nofZ 0] (length points))
      (barycentric_triangle_weights points face_indices faces vertices).
  Proof. exact (triangle_weights_schedules points face_indices faces vertices). Qed.

  (** np.zeros((n_points, n_max_vert)) *)
  Theorem C38_wachspress_weights n_max_vert points face_indices faces vertices (tolerance : T) :
    every_schedule (wachspress_body G n_max_vert points face_indices faces vertices tolerance)
      (repeat (repeat (nofZ 0) n_max_vert) (length points))
      (barycentric_wachspress_weights g n_max_vert points face_indices faces vertices tolerance).
  Proof. exact (wachspress_schedules G g n_max_vert points face_indices faces vertices tolerance). Qed.

  (** in place: the array that is read is the one that is written *)
  Theorem C38_counter_clockwise (vertices : list (point T)) n_max_vert faces :
    width n_max_vert faces ->
    every_schedule (counter_clockwise_body vertices n_max_vert) faces (counter_clockwise vertices faces).
  Proof. exact (counter_clockwise_schedules vertices n_max_vert faces). Qed.

  (** One iteration per chunk, [n_chunks] threads.  The buffers returned by
      the iterations hold uninitialised rows behind the used part; what is
      copied out of them ([mem]: the uninitialised result array) is the same
      under every schedule. *)
  Theorem C38_locate_boxes boxes (tree : celltree T) n_chunks rows0 mem :
    (1 <= n_chunks)%nat -> length rows0 = n_chunks -> width 2 rows0 ->
    let chunks := array_split boxes n_chunks in
    let offsets := chunk_offsets 0 chunks in
    exists parts : res (list (list (Z * Z) * Z)),
      every_schedule (locate_boxes_body G chunks offsets tree) rows0
        (let* ps := parts in Ok (map (fun r => [inl (fst r); inr (snd r)]) ps))
      /\ (let* ps := parts in concatenate mem ps) = locate_boxes g boxes tree n_chunks.
  Proof. exact (locate_boxes_schedules G g boxes tree n_chunks rows0 mem). Qed.

  Theorem C38_locate_edge_edges csfuel edges (tree : celltree T) n_chunks rows0 mem :
    (1 <= n_chunks)%nat -> length rows0 = n_chunks -> width 2 rows0 ->
    let chunks := array_split edges n_chunks in
    let offsets := chunk_offsets 0 chunks in
    exists parts : res (list (list erow * Z)),
      every_schedule (locate_edges_body G csfuel (fun _ => compute_edge_edge_intersect tree) chunks offsets tree) rows0
        (let* ps := parts in Ok (map (fun r => [inl (fst r); inr (snd r)]) ps))
      /\ (let* ps := parts in concatenate mem ps) = locate_edge_edges g csfuel edges tree n_chunks.
  Proof.
    exact (locate_edges_schedules G g csfuel (fun _ => compute_edge_edge_intersect tree) edges tree n_chunks rows0 mem
             (fun _ _ _ _ => eq_refl)).
  Qed.

  Theorem C38_locate_edge_faces csfuel edges (tree : celltree T) n_chunks rows0 mem :
    (1 <= n_chunks)%nat -> length rows0 = n_chunks -> width 2 rows0 ->
    let chunks := array_split edges n_chunks in
    let offsets := chunk_offsets 0 chunks in
    exists parts : res (list (list erow * Z)),
      every_schedule (locate_edges_body G csfuel (fun h => compute_edge_face_intersect h csfuel tree) chunks offsets tree) rows0
        (let* ps := parts in Ok (map (fun r => [inl (fst r); inr (snd r)]) ps))
      /\ (let* ps := parts in concatenate mem ps) = locate_edge_faces g csfuel edges tree n_chunks.
  Proof.
    exact (locate_edges_schedules G g csfuel (fun h => compute_edge_face_intersect h csfuel tree) edges tree n_chunks rows0 mem
             (fun h i a b => edge_face_any h g csfuel tree i a b)).
  Qed.
End C38.

(** The loops do run: from every state some schedule ends. *)
Theorem C38_some_schedule {C} (s : state C) : exists s', reach s s' /\ finished s'.
Proof. exact (some_schedule s). Qed.

(** ** C46 *)
Section C46.
  Context {T : Type} {NT : Num T}.
  Variables g g' : garbage T.

  Theorem C46_locate_points points tree (tolerance : T) :
    locate_points g points tree tolerance = locate_points g' points tree tolerance.
  Proof. apply mapres_ext_in. intros p _. apply locate_point_any. Qed.
  Theorem C46_locate_points_on_edge points tree (tolerance : T) :
    locate_points_on_edge g points tree tolerance = locate_points_on_edge g' points tree tolerance.
  Proof. apply mapres_ext_in. intros p _. apply locate_point_on_edge_any. Qed.
  Theorem C46_polygons_intersect (va vb : list (point T)) fa fb ij :
    polygons_intersect g va vb fa fb ij = polygons_intersect g' va vb fa fb ij.
  Proof. apply mapres_ext_in. intros x _. apply polygons_intersect_one_any. Qed.
  Theorem C46_area_of_intersection (va vb : list (point T)) fa fb ij :
    area_of_intersection g va vb fa fb ij = area_of_intersection g' va vb fa fb ij.
  Proof. apply mapres_ext_in. intros x _. apply area_of_intersection_one_any. Qed.
  Theorem C46_box_area_of_intersection (boxes : list (box T)) vs faces ij :
    box_area_of_intersection g boxes vs faces ij = box_area_of_intersection g' boxes vs faces ij.
  Proof. apply mapres_ext_in. intros x _. apply box_area_one_any. Qed.
  Theorem C46_wachspress_weights n points face_indices faces vertices (tolerance : T) :
    barycentric_wachspress_weights g n points face_indices faces vertices tolerance
    = barycentric_wachspress_weights g' n points face_indices faces vertices tolerance.
  Proof.
    apply mapres_ext_in. intros i _. destruct (aget face_indices i); cbn [bind]; auto.
    destruct (aget points i); cbn [bind]; auto. apply wachspress_one_any.
  Qed.
  Theorem C46_locate_boxes boxes (tree : celltree T) n_chunks :
    locate_boxes g boxes tree n_chunks = locate_boxes g' boxes tree n_chunks.
  Proof.
    unfold locate_boxes. 
    rewrite <- (chunk_same (fun _ => g) g' (gZZ g) (gZZ g') (fun h c o => locate_boxes_helper h c tree o)
      (fun h c o => locate_boxes_helper h c tree o)) by (intros; apply locate_boxes_helper_same).
    rewrite <- (chunk_same (fun _ => g) g (gZZ g) (gZZ g) (fun h c o => locate_boxes_helper h c tree o)
      (fun h c o => locate_boxes_helper h c tree o)) by (intros; apply locate_boxes_helper_same).
    reflexivity.
  Qed.
  Lemma locate_edges_any csfuel f f' edges (tree : celltree T) n_chunks : (forall i a b, f i a b = f' i a b) ->
    locate_edges g csfuel f edges tree n_chunks = locate_edges g' csfuel f' edges tree n_chunks.
  Proof.
    intros Hf. unfold locate_edges.
    rewrite <- (chunk_same (fun _ => g) g' (grow_ g) (grow_ g') (fun h c o => locate_edges_helper h csfuel f c tree o)
      (fun h c o => locate_edges_helper h csfuel f' c tree o)) by (intros; apply locate_edges_helper_same; auto).
    rewrite <- (chunk_same (fun _ => g) g (grow_ g) (grow_ g) (fun h c o => locate_edges_helper h csfuel f c tree o)
      (fun h c o => locate_edges_helper h csfuel f c tree o)) by (intros; apply locate_edges_helper_same; auto).
    reflexivity.
  Qed.
  Theorem C46_locate_edge_edges csfuel edges (tree : celltree T) n_chunks :
    locate_edge_edges g csfuel edges tree n_chunks = locate_edge_edges g' csfuel edges tree n_chunks.
  Proof. apply locate_edges_any. auto. Qed.
  Theorem C46_locate_edge_faces csfuel edges (tree : celltree T) n_chunks :
    locate_edge_faces g csfuel edges tree n_chunks = locate_edge_faces g' csfuel edges tree n_chunks.
  Proof. apply locate_edges_any. intros. apply edge_face_any. Qed.
End C46.

(** ** Examples *)

(** Schedules matter in general: two iterations of a loop that write the same
    cell can leave either value. *)
Definition racy (i : nat) : prog nat unit := vset (View 0 1) 0 i.
Theorem C38_race : exists s s',
  reach (start racy [[7%nat]; []]) s /\ finished s /\ snd s (O, O) = Some 0%nat
  /\ reach (start racy [[7%nat]; []]) s' /\ finished s' /\ snd s' (O, O) = Some 1%nat.
Proof.
  assert (F : forall m, finished (C:=nat) ([Ret tt; Ret tt], m)).
  { intros m s H. inversion H as [? ? i p p' ? E1 E2]; subst. destruct i as [|[|[|]]]; simpl in E1; inversion E1; subst; discriminate. }
  set (m0 := mem_of [[7%nat]; []]).
  exists ([Ret tt; Ret tt], upd (upd m0 (O, O) 1%nat) (O, O) 0%nat), ([Ret tt; Ret tt], upd (upd m0 (O, O) 0%nat) (O, O) 1%nat).
  split; [|split; [apply F|split; [reflexivity|split; [|split; [apply F|reflexivity]]]]].
  - eapply RStep; [eapply (PStep _ _ 1%nat); reflexivity|].
    eapply RStep; [eapply (PStep _ _ 0%nat); reflexivity|]. apply RRefl.
  - eapply RStep; [eapply (PStep _ _ 0%nat); reflexivity|].
    eapply RStep; [eapply (PStep _ _ 1%nat); reflexivity|]. apply RRefl.
Qed.

(** The faces of the example grid, of which two are clockwise, in binary64:
    every schedule turns exactly these. *)
Theorem C38_ccw_example :
  every_schedule (counter_clockwise_body (T:=b64) grid 4) grid_faces
    (Ok [[0;1;5;4];[1;2;6;5];[3;7;6;2];[4;5;9;8];[5;6;10;9];[6;7;11;-1];[11;10;6;-1]]).
Proof.
  pose proof (C38_counter_clockwise (T:=b64) grid 4 grid_faces ltac:(repeat constructor)) as H.
  replace (counter_clockwise (T:=b64) grid grid_faces)
    with (Ok [[0;1;5;4];[1;2;6;5];[3;7;6;2];[4;5;9;8];[5;6;10;9];[6;7;11;-1];[11;10;6;-1]]) in H
    by (vm_compute; reflexivity).
  exact H.
Qed.

Print Assumptions C38_locate_points.
Print Assumptions C38_wachspress_weights.
Print Assumptions C38_counter_clockwise.
Print Assumptions C38_locate_boxes.
Print Assumptions C38_locate_edge_faces.
Print Assumptions C38_ccw_example.
Print Assumptions C46_locate_points.
Print Assumptions C46_locate_edge_faces.
