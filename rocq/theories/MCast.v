(** Model of cast.py on arguments of any shape: numpy arrays with a shape and a
    dtype, and nested Python lists; and the public methods on such arguments. *)
From Verif Require Import Base Num MUtils MGeometry MCreation MAlgorithms MQuery MCelltree.

Section Cast.
  Context {T : Type} {NT : Num T}.
  Local Open Scope num_scope.
  Notation point := (point T).
  Notation box := (box T).

  (** ** Arguments *)
  (** a Python or numpy number *)
  Inductive scalar := SF (x : T) | SI (n : Z).
  (** the elements of a float64 or int64 array *)
  Inductive buffer := FBuf (l : list T) | IBuf (l : list Z).
  (** an ndarray: its shape and its elements in row-major order *)
  Record ndarray := NDArray { nd_shape : list nat; nd_buf : buffer }.
  (** nested lists *)
  Inductive nest := Leaf (x : scalar) | Node (l : list nest).
  (** what a caller passes; simplification: other array-likes are one of these *)
  Inductive arg := ANd (a : ndarray) | ANest (n : nest).

  (** ** numpy *)
  Fixpoint shape_eqb (s s' : list nat) : bool :=
    match s, s' with
    | [], [] => true
    | d :: t, d' :: t' => (d =? d')%nat && shape_eqb t t'
    | _, _ => false
    end.
  (** np.asarray of nested lists: lists of unequal length raise ValueError *)
  Fixpoint nest_shape (n : nest) : res (list nat) :=
    match n with
    | Leaf _ => Ok []
    | Node l =>
        match l with
        | [] => Ok [0%nat]
        | c :: rest =>
            let* s := nest_shape c in
            if forallb (fun r => match r with Ok s' => shape_eqb s s' | Err _ => false end) (map nest_shape rest)
            then Ok (length l :: s) else Err EValue
        end
    end.
  Fixpoint nest_flat (n : nest) : list scalar :=
    match n with Leaf x => [x] | Node l => flat_map nest_flat l end.

  (** the conversions of the elements of an array and of a list to int64 *)
  Variable aint : T -> Z.
  Variable lint : T -> res Z.

  Definition to_float (x : scalar) : T := match x with SF x => x | SI n => nofZ n end.
  Definition to_int (x : scalar) : res Z := match x with SF x => lint x | SI n => Ok n end.

  (** [.astype(FloatDType)], [np.ascontiguousarray(_, dtype=FloatDType)] *)
  Definition as_float (a : arg) : res (list nat * list T) :=
    match a with
    | ANd a => Ok (nd_shape a, match nd_buf a with FBuf l => l | IBuf l => map nofZ l end)
    | ANest n => let* s := nest_shape n in Ok (s, map to_float (nest_flat n))
    end.
  Definition as_int (a : arg) : res (list nat * list Z) :=
    match a with
    | ANd a => Ok (nd_shape a, match nd_buf a with FBuf l => map aint l | IBuf l => l end)
    | ANest n => let* s := nest_shape n in let* l := mapres to_int (nest_flat n) in Ok (s, l)
    end.

  (** the rows of a two-dimensional array *)
  Fixpoint rows {A} (n w : nat) (d : list A) : list (list A) :=
    match n with O => [] | S n => firstn w d :: rows n w (skipn w d) end.
  Definition col (r : list T) (i : nat) : T := nth i r (nofZ 0).
  Definition row_point (r : list T) : point := Pt (col r 0) (col r 1).
  Definition row_box (r : list T) : box := Box (col r 0) (col r 1) (col r 2) (col r 3).
  Definition row_edge (r : list T) : point * point := (Pt (col r 0) (col r 1), Pt (col r 2) (col r 3)).

  (** ** cast.py *)
  (** cast.py:14-21 *)
  Definition cast_vertices (a : arg) : res (list point) :=
    let* r := as_float a in
    let '(s, d) := r in
    if negb (length s =? 2)%nat || negb (nth 1 s 0 =? 2)%nat then Err EValue
    else Ok (map row_point (rows (nth 0 s 0%nat) 2 d)).

  (** cast.py:24-40; the number of columns of the array is returned too *)
  Definition cast_faces_arg (a : arg) (fill_value : Z) : res (list (list Z) * nat) :=
    let* r := as_int a in
    let '(s, d) := r in
    if negb (length s =? 2)%nat then Err EValue
    else
      let n_max_vert := nth 1 s 0%nat in
      if (MAX_N_VERTEX <? n_max_vert)%nat then Err EValue
      else
        let faces := rows (nth 0 s 0%nat) n_max_vert d in
        Ok (if negb (fill_value =? FILL_VALUE)%Z
            then map (map (fun i => if (i =? fill_value)%Z then FILL_VALUE else i)) faces
            else faces, n_max_vert).

  (** cast.py:43-47 *)
  Definition cast_bboxes (a : arg) : res (list box) :=
    let* r := as_float a in
    let '(s, d) := r in
    if negb (length s =? 2)%nat || negb (nth 1 s 0 =? 4)%nat then Err EValue
    else Ok (map row_box (rows (nth 0 s 0%nat) 4 d)).

  (** cast.py:50-54 *)
  Definition cast_edges (a : arg) : res (list (point * point)) :=
    let* r := as_float a in
    let '(s, d) := r in
    if negb (length s =? 3)%nat || negb (nth 1 s 0 =? 2)%nat || negb (nth 2 s 0 =? 2)%nat then Err EValue
    else Ok (map row_edge (rows (nth 0 s 0%nat) 4 d)).

  (** ** The public methods *)
  (** celltree.py:57-93; with the number of columns of self.faces *)
  Definition CellTree2d_init_arg (g : garbage T) (vertices faces : arg)
             (fill_value n_buckets cells_per_leaf : Z) : res (tree2d * nat) :=
    let* _ := check_params n_buckets cells_per_leaf in
    let* vertices := cast_vertices vertices in
    let* r := cast_faces_arg faces fill_value in
    let '(faces, n_max_vert) := r in
    let* faces := counter_clockwise vertices faces in
    let* bb_coords := build_face_bboxes faces vertices in
    let* r := initialize g (build_fuel (length faces)) (length faces) bb_coords
                         n_buckets cells_per_leaf in
    let '(nodes, bb_indices) := r in
    let* bb := bbox_tree bb_coords in
    Ok (Tree2d (CellTree faces vertices nodes bb_indices bb_coords bb cells_per_leaf)
               (bbox_distances bb_coords) n_buckets, n_max_vert).

  (** edge_celltree.py:45-83: the vertices are cast, the edges are not *)
  Definition EdgeCellTree2d_init_arg (g : garbage T) (vertices : arg) (edges : list (list Z))
             (n_buckets cells_per_leaf : Z) : res tree2d :=
    let* _ := check_params n_buckets cells_per_leaf in
    let* vertices := cast_vertices vertices in
    EdgeCellTree2d_init g vertices edges n_buckets cells_per_leaf.

  (** celltree.py:121-124, edge_celltree.py:109-112 *)
  Definition locate_points_arg (g : garbage T) (t : tree2d) (points : arg) (tolerance : option T) : res (list Z) :=
    let* tol := get_tolerance t tolerance in
    let* points := cast_vertices points in
    locate_points g points (celltree_data t) tol.
  Definition edge_locate_points_arg (g : garbage T) (t : tree2d) (points : arg) (tolerance : option T) : res (list Z) :=
    let* tol := get_tolerance t tolerance in
    let* points := cast_vertices points in
    locate_points_on_edge g points (celltree_data t) tol.

  (** celltree.py:142-144 *)
  Definition locate_boxes_arg (g : garbage T) (n_threads : nat) (t : tree2d) (bbox_coords : arg) : res (list (Z * Z)) :=
    let* bbox_coords := cast_bboxes bbox_coords in
    CellTree2d_locate_boxes g n_threads t bbox_coords.
  (** celltree.py:167-180 *)
  Definition intersect_boxes_arg (g : garbage T) (n_threads : nat) (t : tree2d) (bbox_coords : arg)
    : res (list ((Z * Z) * T)) :=
    let* bbox_coords := cast_bboxes bbox_coords in
    CellTree2d_intersect_boxes g n_threads t bbox_coords.
  (** celltree.py:251-265 *)
  Definition intersect_faces_arg (g : garbage T) (n_threads : nat) (t : tree2d) (vertices_ faces : arg) (fill_value : Z)
    : res (list ((Z * Z) * T)) :=
    let* vertices_ := cast_vertices vertices_ in
    let* r := cast_faces_arg faces fill_value in
    let '(faces, _) := r in
    let* r := CellTree2d_locate_faces g n_threads t vertices_ faces in
    let '(ij, faces) := r in
    let* area := area_of_intersection g vertices_ (vertices (celltree_data t))
                   faces (elements (celltree_data t)) ij in
    let actual := map (fun x => x >? 0) area in
    Ok (combine (mask ij actual) (mask area actual)).
  (** celltree.py:291-293, edge_celltree.py:135-141 *)
  Definition intersect_edges_arg (g : garbage T) (csfuel n_threads : nat) (t : tree2d) (edge_coords : arg) : res (list erow) :=
    let* edge_coords := cast_edges edge_coords in
    CellTree2d_intersect_edges g csfuel n_threads t edge_coords.
  Definition edge_intersect_edges_arg (g : garbage T) (csfuel n_threads : nat) (t : tree2d) (edge_coords : arg)
    : res (list ((Z * Z) * option point)) :=
    let* edge_coords := cast_edges edge_coords in
    EdgeCellTree2d_intersect_edges g csfuel n_threads t edge_coords.
  (** celltree.py:324-340: locate_points casts the points; the weights are then
      computed from the array as it was passed.  Simplifications: nested lists,
      which numba does not take here, are left out, and integers are converted
      once instead of in every operation. *)
  Definition compute_barycentric_weights_arg (g : garbage T) (t : tree2d) (n_max_vert : nat) (points : ndarray)
             (tolerance : option T) : res (list Z * list (list T)) :=
    let* tol := get_tolerance t tolerance in
    let* points := cast_vertices (ANd points) in
    CellTree2d_compute_barycentric_weights g t n_max_vert points (Some tol).
End Cast.
