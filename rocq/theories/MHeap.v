(** Which arrays are shared with the caller: cast.py and the methods of
    celltree.py and edge_celltree.py that write to, copy or keep arrays they
    were given.

    Arrays live in a heap; array objects refer to them by location.  The
    integer (faces, edges) and float (vertices) arrays are kept apart: they
    have different dtypes and never share memory. *)
From Verif Require Import Base Num MUtils MGeometry MCreation MAlgorithms MQuery MCelltree.

Section Heap.
  Context {T : Type} {NT : Num T}.
  Local Open Scope num_scope.
  Notation point := (point T).

  Record heap := Heap { h_int : list (list (list Z)); h_float : list (list point) }.

  (** A statement changes the heap, also when it raises. *)
  Definition hm (X : Type) : Type := heap -> res X * heap.
  Definition hret {X} (x : X) : hm X := fun h => (Ok x, h).
  Definition hbind {X Y} (m : hm X) (f : X -> hm Y) : hm Y :=
    fun h => match m h with (Ok x, h') => f x h' | (Err e, h') => (Err e, h') end.
  (** a computation on values *)
  Definition pure {X} (r : res X) : hm X := fun h => (r, h).

  Definition new_int (v : list (list Z)) : hm nat :=
    fun h => (Ok (length (h_int h)), Heap (h_int h ++ [v]) (h_float h)).
  Definition new_float (v : list point) : hm nat :=
    fun h => (Ok (length (h_float h)), Heap (h_int h) (h_float h ++ [v])).
  Definition read_int (l : nat) : hm (list (list Z)) :=
    fun h => (match nth_error (h_int h) l with Some v => Ok v | None => Err EIndex end, h).
  Definition read_float (l : nat) : hm (list point) :=
    fun h => (match nth_error (h_float h) l with Some v => Ok v | None => Err EIndex end, h).
  Definition write_int (l : nat) (v : list (list Z)) : hm unit :=
    fun h => (Ok tt, Heap (list_set (h_int h) l v) (h_float h)).

  (** What a caller can pass as faces: an ndarray; an array-like that is not
      an ndarray but exposes an ndarray of the right dtype and layout without
      copying (xarray.DataArray, memoryview, ...); nested lists. *)
  Inductive int_arg := INd (l : nat) | ILike (l : nat) | IList (v : list (list Z)).
  (** The same for vertices; [same_dtype]: the dtype is FloatDType *)
  Inductive float_arg := FNd (l : nat) (same_dtype : bool) | FLike (l : nat) | FList (v : list point).

  (** cast.py:14-21.  astype(dtype, copy=c) copies if c or if the dtype
      differs; np.ascontiguousarray copies only if it has to. *)
  Definition cast_vertices_h (a : float_arg) (copy : bool) : hm nat :=
    match a with
    | FNd l same_dtype =>
        if copy || negb same_dtype then hbind (read_float l) new_float else hret l
    | FLike l => hret l
    | FList v => new_float v
    end.

  (** cast.py:24-42 *)
  Definition cast_faces_h (a : int_arg) (fill_value : Z) : hm nat :=
    hbind (match a with
           | INd l => hbind (read_int l) new_int
           | ILike l => hret l
           | IList v => new_int v
           end) (fun l =>
    hbind (read_int l) (fun faces =>
    if existsb (fun f => (MAX_N_VERTEX <? length f)%nat) faces then pure (Err EValue)
    else if negb (fill_value =? FILL_VALUE)%Z then
      hbind (write_int l (map (map (fun i => if (i =? fill_value)%Z then FILL_VALUE else i)) faces))
            (fun _ => hret l)
    else hret l)).

  (** What counter_clockwise leaves in the array if it fails half-way *)
  Context (wreck : list (list Z) -> list (list Z)).

  (** geometry_utils.py:542-561 on the array at [l] *)
  Definition counter_clockwise_h (vl l : nat) : hm unit :=
    hbind (read_float vl) (fun vertices =>
    hbind (read_int l) (fun faces =>
    match counter_clockwise vertices faces with
    | Ok faces' => write_int l faces'
    | Err e => hbind (write_int l (wreck faces)) (fun _ => pure (Err e))
    end)).

  (** The object: self.faces (or self.edges) and self.vertices are references;
      the other attributes are arrays of its own. *)
  Record htree := HTree { ht_elements : nat; ht_vertices : nat; ht_own : tree2d (T:=T) }.

  (** the tree as a query sees it *)
  Definition with_arrays (t : tree2d (T:=T)) (es : list (list Z)) (vs : list point) : tree2d (T:=T) :=
    let d := celltree_data t in
    Tree2d (CellTree es vs (nodes d) (bb_indices d) (bb_coords d) (bbox d) (cells_per_leaf d))
           (bb_dist t) (t_n_buckets t).
  Definition deref (t : htree) : hm (tree2d (T:=T)) :=
    hbind (read_int (ht_elements t)) (fun es =>
    hbind (read_float (ht_vertices t)) (fun vs => hret (with_arrays (ht_own t) es vs))).

  (** celltree.py:74-93 *)
  Definition init_tail (g : garbage T) (faces : list (list Z)) (vertices : list point) (n_buckets cells_per_leaf : Z)
    : res (tree2d (T:=T)) :=
    let* bb_coords := build_face_bboxes faces vertices in
    let* r := initialize g (build_fuel (length faces)) (length faces) bb_coords
                         n_buckets cells_per_leaf in
    let '(nodes, bb_indices) := r in
    let* bb := bbox_tree bb_coords in
    Ok (Tree2d (CellTree faces vertices nodes bb_indices bb_coords bb cells_per_leaf)
               (bbox_distances bb_coords) n_buckets).

  (** celltree.py:57-93 *)
  Definition CellTree2d_init_h (g : garbage T) (vertices : float_arg) (faces : int_arg)
             (fill_value n_buckets cells_per_leaf : Z) : hm htree :=
    hbind (pure (check_params n_buckets cells_per_leaf)) (fun _ =>
    hbind (cast_vertices_h vertices true) (fun vl =>
    hbind (cast_faces_h faces fill_value) (fun fl =>
    hbind (counter_clockwise_h vl fl) (fun _ =>
    hbind (read_int fl) (fun fs =>
    hbind (read_float vl) (fun vs =>
    hbind (pure (init_tail g fs vs n_buckets cells_per_leaf)) (fun t =>
    hret (HTree fl vl t)))))))).

  (** edge_celltree.py:45-83: the edges are an ndarray, kept as they are *)
  Definition EdgeCellTree2d_init_h (g : garbage T) (vertices : float_arg) (el : nat)
             (n_buckets cells_per_leaf : Z) : hm htree :=
    hbind (pure (check_params n_buckets cells_per_leaf)) (fun _ =>
    hbind (cast_vertices_h vertices true) (fun vl =>
    hbind (read_int el) (fun es =>
    hbind (read_float vl) (fun vs =>
    hbind (pure (EdgeCellTree2d_init g vs es n_buckets cells_per_leaf)) (fun t =>
    hret (HTree el vl t)))))).

  (** celltree.py:208-222 after the in-place call *)
  Definition locate_faces_tail (g : garbage T) (n_threads : nat) (t : tree2d (T:=T))
             (vertices_ : list point) (faces : list (list Z)) : res (list (Z * Z)) :=
    let* bbox_coords := build_face_bboxes faces vertices_ in
    let* shortlist := locate_boxes g bbox_coords (celltree_data t) n_threads in
    let* intersects := polygons_intersect g vertices_ (vertices (celltree_data t))
                         faces (elements (celltree_data t)) shortlist in
    Ok (mask shortlist intersects).

  (** celltree.py:182-222: the arguments are ndarrays and passed on as they are *)
  Definition locate_faces_h (g : garbage T) (n_threads : nat) (t : htree) (vl fl : nat) : hm (list (Z * Z)) :=
    hbind (counter_clockwise_h vl fl) (fun _ =>
    hbind (read_int fl) (fun fs =>
    hbind (read_float vl) (fun vs =>
    hbind (deref t) (fun t' =>
    pure (locate_faces_tail g n_threads t' vs fs))))).

  (** celltree.py:224-265 *)
  Definition intersect_faces_tail (g : garbage T) (t : tree2d (T:=T))
             (vertices_ : list point) (faces : list (list Z)) (ij : list (Z * Z)) : res (list ((Z * Z) * T)) :=
    let* area := area_of_intersection g vertices_ (vertices (celltree_data t))
                   faces (elements (celltree_data t)) ij in
    let actual := map (fun x => x >? 0) area in
    Ok (combine (mask ij actual) (mask area actual)).
  Definition intersect_faces_h (g : garbage T) (n_threads : nat) (t : htree)
             (vertices_ : float_arg) (faces : int_arg) (fill_value : Z) : hm (list ((Z * Z) * T)) :=
    hbind (cast_vertices_h vertices_ false) (fun vl =>
    hbind (cast_faces_h faces fill_value) (fun fl =>
    hbind (locate_faces_h g n_threads t vl fl) (fun ij =>
    hbind (read_int fl) (fun fs =>
    hbind (read_float vl) (fun vs =>
    hbind (deref t) (fun t' =>
    pure (intersect_faces_tail g t' vs fs ij))))))).
End Heap.
