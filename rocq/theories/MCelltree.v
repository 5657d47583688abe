(** Model of the public classes: celltree_base.py, celltree.py,
    edge_celltree.py and of cast.py.

    Arrays of the right dtype are assumed; [ndim]/[shape] checks of cast.py
    other than the number of face columns hold by the types of the model. *)
From Verif Require Import Base Num MUtils MGeometry MCreation MAlgorithms MQuery.

Section Celltree.
  Context {T : Type} {NT : Num T}.
  Local Open Scope num_scope.
  Notation point := (point T).
  Notation box := (box T).
  Notation celltree := (celltree T).

  (** numpy reductions [.min()], [.max()]: NaN propagates, an empty array
      raises ValueError. *)
  Definition is_nan (x : T) : bool := negb (x =? x).
  Definition npmin2 (a b : T) : T := if is_nan a then a else if is_nan b then b else nmin a b.
  Definition npmax2 (a b : T) : T := if is_nan a then a else if is_nan b then b else nmax a b.
  Definition np_min (l : list T) : res T :=
    match l with [] => Err EValue | x :: t => Ok (fold_left npmin2 t x) end.
  Definition np_max (l : list T) : res T :=
    match l with [] => Err EValue | x :: t => Ok (fold_left npmax2 t x) end.
  (** Python builtin [max] over an array *)
  Definition py_max (l : list T) : res T :=
    match l with [] => Err EValue | x :: t => Ok (fold_left nmax t x) end.

  (** celltree_base.py:20-25 *)
  Definition bbox_tree (bb_coords : list box) : res box :=
    let* x0 := np_min (map (@xmin T) bb_coords) in
    let* x1 := np_max (map (@xmax T) bb_coords) in
    let* y0 := np_min (map (@ymin T) bb_coords) in
    let* y1 := np_max (map (@ymax T) bb_coords) in
    Ok (Box x0 x1 y0 y1).

  (** celltree_base.py:28-48 *)
  Definition bbox_distance (b : box) : T * T * T :=
    let dx := xmax b - xmin b in
    let dy := ymax b - ymin b in
    (dx, dy, nsqrt (dx * dx + dy * dy)).
  Definition bbox_distances (bb_coords : list box) : list (T * T * T) :=
    map bbox_distance bb_coords.

  (** celltree_base.py:51-52 *)
  Definition default_tolerance (bb_diagonal : list T) : res T :=
    let* m := py_max bb_diagonal in
    Ok (nmax nmintol (ntolfac * m)).

  (** cast.py:24-40 *)
  Definition cast_faces (faces : list (list Z)) (fill_value : Z) : res (list (list Z)) :=
    if existsb (fun f => (MAX_N_VERTEX <? length f)%nat) faces then Err EValue
    else if negb (fill_value =? FILL_VALUE)%Z then
      Ok (map (map (fun i => if (i =? fill_value)%Z then FILL_VALUE else i)) faces)
    else Ok faces.

  (** The attributes of CellTree2d / EdgeCellTree2d used by the methods *)
  Record tree2d := Tree2d {
    celltree_data : celltree;
    bb_dist : list (T * T * T);
    t_n_buckets : Z }.

  (** Rounds granted to the construction loop (see DESIGN.md: never exhausted) *)
  Definition build_fuel (n : nat) : nat := (4 * n + 2)%nat.

  (** celltree.py:65-68, edge_celltree.py:54-57 *)
  Definition check_params (n_buckets cells_per_leaf : Z) : res unit :=
    if (n_buckets <? 2)%Z then Err EValue
    else if (cells_per_leaf <? 1)%Z then Err EValue
    else Ok tt.

  (** celltree.py:57-93.  vertices and faces are copies of the caller's. *)
  Definition CellTree2d_init (g : garbage T) (vertices : list point) (faces : list (list Z))
             (fill_value n_buckets cells_per_leaf : Z) : res tree2d :=
    let* _ := check_params n_buckets cells_per_leaf in
    let* faces := cast_faces faces fill_value in
    let* faces := counter_clockwise vertices faces in
    let* bb_coords := build_face_bboxes faces vertices in
    let* r := initialize g (build_fuel (length faces)) (length faces) bb_coords
                         n_buckets cells_per_leaf in
    let '(nodes, bb_indices) := r in
    let* bb := bbox_tree bb_coords in
    Ok (Tree2d (CellTree faces vertices nodes bb_indices bb_coords bb cells_per_leaf)
               (bbox_distances bb_coords) n_buckets).

  (** edge_celltree.py:45-83 *)
  Definition EdgeCellTree2d_init (g : garbage T) (vertices : list point) (edges : list (list Z))
             (n_buckets cells_per_leaf : Z) : res tree2d :=
    let* _ := check_params n_buckets cells_per_leaf in
    let* x1 := np_max (map (@px T) vertices) in
    let* x0 := np_min (map (@px T) vertices) in
    let* y1 := np_max (map (@py T) vertices) in
    let* y0 := np_min (map (@py T) vertices) in
    let dx := x1 - x0 in
    let dy := y1 - y0 in
    let global_tolerance := nmax nmintol (ntolfac * nmax dx dy) in
    let* bb_coords := build_edge_bboxes edges vertices global_tolerance in
    let* r := initialize g (build_fuel (length edges)) (length edges) bb_coords
                         n_buckets cells_per_leaf in
    let '(nodes, bb_indices) := r in
    let* bb := bbox_tree bb_coords in
    Ok (Tree2d (CellTree edges vertices nodes bb_indices bb_coords bb cells_per_leaf)
               (bbox_distances bb_coords) n_buckets).

  (** celltree.py:121-122, 324-325, edge_celltree.py:109-110 *)
  Definition get_tolerance (t : tree2d) (tolerance : option T) : res T :=
    match tolerance with
    | Some x => Ok x
    | None => default_tolerance (map snd (bb_dist t))
    end.

  (** celltree.py:95-124 *)
  Definition CellTree2d_locate_points (g : garbage T) (t : tree2d) (points : list point)
             (tolerance : option T) : res (list Z) :=
    let* tol := get_tolerance t tolerance in
    locate_points g points (celltree_data t) tol.

  (** edge_celltree.py:85-112 *)
  Definition EdgeCellTree2d_locate_points (g : garbage T) (t : tree2d) (points : list point)
             (tolerance : option T) : res (list Z) :=
    let* tol := get_tolerance t tolerance in
    locate_points_on_edge g points (celltree_data t) tol.

  (** celltree.py:126-144; [n_threads] is nb.get_num_threads() *)
  Definition CellTree2d_locate_boxes (g : garbage T) (n_threads : nat) (t : tree2d)
             (bbox_coords : list box) : res (list (Z * Z)) :=
    locate_boxes g bbox_coords (celltree_data t) n_threads.

  (** boolean mask indexing x[mask] *)
  Definition mask {A} (l : list A) (m : list bool) : list A :=
    map fst (filter snd (combine l m)).

  (** celltree.py:146-180 *)
  Definition CellTree2d_intersect_boxes (g : garbage T) (n_threads : nat) (t : tree2d)
             (bbox_coords : list box) : res (list ((Z * Z) * T)) :=
    let* ij := locate_boxes g bbox_coords (celltree_data t) n_threads in
    let* area := box_area_of_intersection g bbox_coords (vertices (celltree_data t))
                   (elements (celltree_data t)) ij in
    let actual := map (fun x => x >? 0) area in
    Ok (combine (mask ij actual) (mask area actual)).

  (** celltree.py:182-222.  Also returns the caller's [faces] array as left by
      the in-place counter_clockwise call. *)
  Definition CellTree2d_locate_faces (g : garbage T) (n_threads : nat) (t : tree2d)
             (vertices_ : list point) (faces : list (list Z))
    : res (list (Z * Z) * list (list Z)) :=
    let* faces := counter_clockwise vertices_ faces in
    let* bbox_coords := build_face_bboxes faces vertices_ in
    let* shortlist := locate_boxes g bbox_coords (celltree_data t) n_threads in
    let* intersects := polygons_intersect g vertices_ (vertices (celltree_data t))
                         faces (elements (celltree_data t)) shortlist in
    Ok (mask shortlist intersects, faces).

  (** celltree.py:224-265 *)
  Definition CellTree2d_intersect_faces (g : garbage T) (n_threads : nat) (t : tree2d)
             (vertices_ : list point) (faces : list (list Z)) (fill_value : Z)
    : res (list ((Z * Z) * T)) :=
    let* faces := cast_faces faces fill_value in
    let* r := CellTree2d_locate_faces g n_threads t vertices_ faces in
    let '(ij, faces) := r in
    let* area := area_of_intersection g vertices_ (vertices (celltree_data t))
                   faces (elements (celltree_data t)) ij in
    let actual := map (fun x => x >? 0) area in
    Ok (combine (mask ij actual) (mask area actual)).

  (** celltree.py:267-293 *)
  Definition CellTree2d_intersect_edges (g : garbage T) (csfuel n_threads : nat) (t : tree2d)
             (edge_coords : list (point * point)) : res (list erow) :=
    locate_edge_faces g csfuel edge_coords (celltree_data t) n_threads.

  (** edge_celltree.py:114-141: xy[:, 0] *)
  Definition EdgeCellTree2d_intersect_edges (g : garbage T) (csfuel n_threads : nat) (t : tree2d)
             (edge_coords : list (point * point)) : res (list ((Z * Z) * option point)) :=
    let* rows := locate_edge_edges g csfuel edge_coords (celltree_data t) n_threads in
    Ok (map (fun r => (fst r, fst (snd r))) rows).

  (** celltree.py:295-340; [n_max_vert] is self.faces.shape[1] *)
  Definition CellTree2d_compute_barycentric_weights (g : garbage T) (t : tree2d)
             (n_max_vert : nat) (points : list point) (tolerance : option T)
    : res (list Z * list (list T)) :=
    let* tol := get_tolerance t tolerance in
    let* face_indices := CellTree2d_locate_points g t points (Some tol) in
    let* weights :=
      if (3 <? n_max_vert)%nat then
        barycentric_wachspress_weights g n_max_vert points face_indices
          (elements (celltree_data t)) (vertices (celltree_data t)) tol
      else
        barycentric_triangle_weights points face_indices
          (elements (celltree_data t)) (vertices (celltree_data t)) in
    Ok (face_indices, weights).

  (** celltree_base.py:62-80 *)
  Definition node_bounds (g : garbage T) (t : tree2d) : res (list box) :=
    collect_node_bounds g (celltree_data t).
  Definition CellTree2d_validate_node_bounds (g : garbage T) (t : tree2d) : res (list bool) :=
    let* nb := node_bounds g t in
    validate_node_bounds g (celltree_data t) nb.

  (** celltree_base.py:82-114 *)
  Definition to_dict_of_lists (t : tree2d) : list (Z * list Z) :=
    combine (iota (length (nodes (celltree_data t))))
            (map (fun nd => if (nchild nd =? -1)%Z then []
                            else [nchild nd; (nchild nd + 1)%Z])
                 (nodes (celltree_data t))).
End Celltree.
