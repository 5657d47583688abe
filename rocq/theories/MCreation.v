(** Model of numba_celltree/creation.py. *)
From Verif Require Import Base Num MUtils MGeometry.

Section Creation.
  Context {T : Type} {NT : Num T}.
  Local Open Scope num_scope.
  Notation node := (node T).
  Notation bucket := (bucket T).
  Notation box := (box T).

  (** Column [k] of a row (xmin, xmax, ymin, ymax) of bb_coords *)
  Definition bcol (b : box) (k : Z) : res T :=
    aget [xmin b; xmax b; ymin b; ymax b] k.

  (** creation.py:28-29 *)
  Definition create_node (ptr size : Z) (dim : bool) : node :=
    Node (-1)%Z (nofZ (-1)) (nofZ (-1)) ptr size dim.

  (** creation.py:33-41 *)
  Definition push_node (nodes : list node) (nd : node) (index : Z) : res (list node * Z) :=
    let* nodes := aset nodes index nd in
    Ok (nodes, (index + 1)%Z).

  (** creation.py:45-51 *)
  Definition centroid (lo hi : T) : T := lo + nhalf * (hi - lo).
  Definition centroid_test (bk : bucket) (b : box) (dim : Z) : res bool :=
    let* lo := bcol b (2 * dim)%Z in
    let* hi := bcol b (2 * dim + 1)%Z in
    let c := centroid lo hi in
    Ok ((c >=? bMin bk) && (c <? bMax bk)).

  (** creation.py:91-102: first loop, filling the temporary buffer from the
      front and from the back *)
  Definition partition_fill (bb_coords : list box) (bk : bucket) (dim : Z) (i : Z)
             (st : list Z * Z * Z) : res (list Z * Z * Z) :=
    let '(temp, count_true, count_false) := st in
    let* b := aget bb_coords i in
    let* t := centroid_test bk b dim in
    if t : bool then
      let* temp := aset temp count_true i in
      Ok (temp, (count_true + 1)%Z, count_false)
    else
      let* temp := aset temp count_false i in
      Ok (temp, count_true, (count_false - 1)%Z).

  (** numpy slice arr[begin:end] for 0 <= begin, end *)
  Definition slice {A} (l : list A) (b e : Z) : list A :=
    firstn (Z.to_nat (e - b)) (skipn (Z.to_nat b) l).

  (** creation.py:55-112.  [mem] is the garbage in the temporary buffer. *)
  Definition stable_partition (mem : nat -> nat -> Z) (bb_indices : list Z)
             (bb_coords : list box) (begin_ end_ : Z) (bk : bucket) (dim : Z)
    : res (list Z * Z) :=
    let temp := np_empty mem (Z.to_nat (end_ - begin_)) in
    let* st := foldres (slice bb_indices begin_ end_) (partition_fill bb_coords bk dim)
                       (temp, 0%Z, (-1)%Z) in
    let '(temp, count_true, count_false) := st in
    let* bb_indices := for_range 0 count_true
      (fun i bbi => let* v := aget temp i in aset bbi (begin_ + i)%Z v) bb_indices in
    let start_second := (begin_ + count_true)%Z in
    let* bb_indices := for_range 0 (-1 - count_false)%Z
      (fun i bbi => let* v := aget temp (- i - 1)%Z in aset bbi (start_second + i)%Z v)
      bb_indices in
    Ok (bb_indices, start_second).

  (** creation.py:116-150.  The while loop runs until [current == end];
      [buckets[i - 1]] raises IndexError once i - 1 reaches len(buckets), so
      len(buckets) + 1 rounds always suffice. *)
  Fixpoint sort_loop (mem : nat -> nat -> Z) (bb_coords : list box) (end_ : Z) (dim : Z)
           (fuel : nat) (i : Z) (current : Z) (bb_indices : list Z) (buckets : list bucket)
    : res (list Z * list bucket) :=
    if (current =? end_)%Z then Ok (bb_indices, buckets)
    else
      match fuel with
      | O => Err EFuel
      | S fuel' =>
          let* bk := lget buckets (i - 1)%Z in
          let* r := stable_partition mem bb_indices bb_coords current end_ bk dim in
          let '(bb_indices, current) := r in
          let start := bindex bk in
          let* b := lget buckets (i - 1)%Z in
          let* buckets := lset buckets (i - 1)%Z
            (Bucket (bMax b) (bMin b) (bRmin b) (bLmax b) (bindex b) (current - start)%Z) in
          let* buckets :=
            if (i <? zlen buckets)%Z then
              let* b := lget buckets i in
              let* bp := lget buckets (i - 1)%Z in
              lset buckets i
                (Bucket (bMax b) (bMin b) (bRmin b) (bLmax b) (bindex bp + bsize bp)%Z (bsize b))
            else Ok buckets in
          sort_loop mem bb_coords end_ dim fuel' (i + 1) current bb_indices buckets
      end.

  Definition sort_bbox_indices (mem : nat -> nat -> Z) (bb_indices : list Z)
             (bb_coords : list box) (buckets : list bucket) (nd : node) (dim : Z)
    : res (list Z * list bucket) :=
    let current := nptr nd in
    let end_ := (nptr nd + nsize nd)%Z in
    let* b := lget buckets 0%Z in
    let* buckets := lset buckets 0%Z
      (Bucket (bMax b) (bMin b) (bRmin b) (bLmax b) (nptr nd) (bsize b)) in
    sort_loop mem bb_coords end_ dim (S (length buckets)) 1%Z current bb_indices buckets.

  (** creation.py:154-171.  Returns (Rmin, Lmax). *)
  Definition get_bounds_step (bb_coords : list box) (bb_indices : list Z) (dim : Z)
             (i : Z) (st : T * T) : res (T * T) :=
    let '(Rmin, Lmax) := st in
    let* data_index := aget bb_indices i in
    let* b := aget bb_coords data_index in
    let* value := bcol b (2 * dim)%Z in
    let Rmin := if value <? Rmin then value else Rmin in
    let* value := bcol b (2 * dim + 1)%Z in
    let Lmax := if value >? Lmax then value else Lmax in
    Ok (Rmin, Lmax).
  Definition get_bounds (index size : Z) (bb_coords : list box) (bb_indices : list Z) (dim : Z)
    : res (T * T) :=
    for_range index (index + size) (get_bounds_step bb_coords bb_indices dim) (nfmax, nfmin).

  (** creation.py:190-200: the plane search.  [None] is plane = INT_MAX. *)
  Definition plane_step (buckets : list bucket) (root_size : Z)
             (range_Lmax range_Rmin bucket_length : T)
             (i : Z) (st : T * option Z * Z) : res (T * option Z * Z) :=
    let '(plane_min_cost, plane, bbs_in_left) := st in
    let* current_bucket := lget buckets (i - 1)%Z in
    let* next_bucket := lget buckets i in
    let bbs_in_left := (bbs_in_left + bsize current_bucket)%Z in
    let bbs_in_right := (root_size - bbs_in_left)%Z in
    let* left_volume := ndiv (bLmax current_bucket - range_Rmin) bucket_length in
    let* right_volume := ndiv (range_Lmax - bRmin next_bucket) bucket_length in
    let plane_cost := left_volume * nofZ bbs_in_left + right_volume * nofZ bbs_in_right in
    if plane_cost <? plane_min_cost then Ok (plane_cost, Some i, bbs_in_left)
    else Ok (plane_min_cost, plane, bbs_in_left).

  (** creation.py:175-213.  If no plane was selected, plane is INT_MAX and
      [for i in range(plane): buckets[i]] raises IndexError at i = len(buckets). *)
  Definition split_plane (buckets : list bucket) (root : node)
             (range_Lmax range_Rmin bucket_length : T) : res (Z * T * T) :=
    let* st := for_range 1 (zlen buckets)
                 (plane_step buckets (nsize root) range_Lmax range_Rmin bucket_length)
                 (nfmax, None, 0%Z) in
    let '(_, plane, _) := st in
    match plane with
    | None => Err EList
    | Some plane =>
        let* Lmax := for_range 0 plane
          (fun i Lmax => let* b := lget buckets i in
                         Ok (if bLmax b >? Lmax then bLmax b else Lmax)) nfmin in
        let* Rmin := for_range plane (zlen buckets)
          (fun i Rmin => let* b := lget buckets i in
                         Ok (if bRmin b <? Rmin then bRmin b else Rmin)) nfmax in
        Ok (plane, Lmax, Rmin)
    end.

  (** creation.py:217-230.  int(np.ceil(n / 2)) on machine integers is
      (n + 1) / 2 for 0 <= n < 2^53. *)
  Fixpoint pessimistic_loop (fuel : nat) (n_nodes nodes : Z) : Z :=
    match fuel with
    | O => n_nodes
    | S fuel' =>
        if (nodes >? 1)%Z then
          pessimistic_loop fuel' (n_nodes + nodes)%Z ((nodes + 1) / 2)%Z
        else n_nodes
    end.
  Definition pessimistic_n_nodes (n_elements : Z) : Z :=
    (pessimistic_loop (Z.to_nat n_elements) n_elements ((n_elements + 1) / 2) + 1)%Z.

  (** creation.py:281-293: bucket creation *)
  Definition make_buckets (n_buckets : Z) (bucket_length range_Rmin : T) : list bucket :=
    map (fun i => Bucket (nofZ (i + 1) * bucket_length + range_Rmin)
                         (nofZ i * bucket_length + range_Rmin)
                         (nofZ (-1)) (nofZ (-1)) (-1)%Z 0%Z)
        (iota (Z.to_nat n_buckets)).

  (** creation.py:301-306: Rmin and Lmax of every bucket *)
  Definition bucket_bounds (n_buckets : Z) (bb_coords : list box) (bb_indices : list Z) (dim : Z)
             (buckets : list bucket) : res (list bucket) :=
    for_range 0 n_buckets
      (fun i buckets =>
         let* b := lget buckets i in
         let* rl := get_bounds (bindex b) (bsize b) bb_coords bb_indices dim in
         let '(Rmin, Lmax) := rl in
         lset buckets i (Bucket (bMax b) (bMin b) Rmin Lmax (bindex b) (bsize b)))
      buckets.

  (** creation.py:322-325: while buckets[0].size == 0: merge into buckets[1],
      pop(0).  [b0] is buckets[0], [rest] is buckets[1:]; buckets[1] raises
      IndexError if it does not exist. *)
  Fixpoint drop_empty_front (b0 : bucket) (rest : list bucket) : res (list bucket) :=
    if (bsize b0 =? 0)%Z then
      match rest with
      | [] => Err EList
      | b1 :: rest' =>
          drop_empty_front (Bucket (bMax b1) (bMin b0) (bRmin b1) (bLmax b1)
                                   (bindex b1) (bsize b1)) rest'
      end
    else Ok (b0 :: rest).

  (** creation.py:327-341: merge empty buckets into their predecessor.
      [prev] is buckets[i - 1], [rest] is buckets[i:]. *)
  Fixpoint merge_empty (prev : bucket) (rest : list bucket) : list bucket :=
    match rest with
    | [] => [prev]
    | b :: rest' =>
        if (bsize b =? 0)%Z then
          merge_empty (Bucket (bMax b) (bMin prev) (bRmin prev) (bLmax prev)
                              (bindex prev) (bsize prev)) rest'
        else prev :: merge_empty b rest'
    end.

  Definition merge_buckets (buckets : list bucket) : res (list bucket) :=
    match buckets with
    | [] => Err EList
    | b0 :: rest =>
        let* bs := drop_empty_front b0 rest in
        match bs with
        | [] => Err EList
        | b0 :: rest => Ok (merge_empty b0 rest)
        end
    end.

  (** State of the construction loop *)
  Record bstate := BState {
    st_nodes : list node;
    st_node_index : Z;
    st_bbi : list Z }.

  (** [nodes[i]["field"] = v] for a record array *)
  Definition set_child (nd : node) (c : Z) : node :=
    Node c (nLmax nd) (nRmin nd) (nptr nd) (nsize nd) (ndim nd).
  Definition set_bounds (nd : node) (L R : T) : node :=
    Node (nchild nd) L R (nptr nd) (nsize nd) (ndim nd).
  Definition set_dim (nd : node) (d : bool) : node :=
    Node (nchild nd) (nLmax nd) (nRmin nd) (nptr nd) (nsize nd) d.
  Definition update_node (nodes : list node) (i : Z) (f : node -> node) : res (list node) :=
    let* nd := aget nodes i in aset nodes i (f nd).

  (** creation.py:269-306: sort the elements of [root] into buckets *)
  Definition make_sorted_buckets (g : garbage T) (bb_coords : list box) (n_buckets : Z)
             (root : node) (dim : Z) (bb_indices : list Z)
    : res (T * T * T * list Z * list bucket) :=
    let* rl := get_bounds (nptr root) (nsize root) bb_coords bb_indices dim in
    let '(range_Rmin, range_Lmax) := rl in
    let* bucket_length := ndiv (range_Lmax - range_Rmin) (nofZ n_buckets) in
    let buckets := make_buckets n_buckets bucket_length range_Rmin in
    let* r := sort_bbox_indices (gZ g) bb_indices bb_coords buckets root dim in
    let '(bb_indices, buckets) := r in
    let* buckets := bucket_bounds n_buckets bb_coords bb_indices dim buckets in
    Ok (range_Rmin, range_Lmax, bucket_length, bb_indices, buckets).

  Definition b2z (b : bool) : Z := if b then 1%Z else 0%Z.

  (** creation.py:371-376: append the two children of [root_index] *)
  Definition add_children (nodes : list node) (root_index node_index : Z)
             (left_child right_child : node) : res (list node * Z) :=
    let* nodes := update_node nodes root_index (fun nd => set_child nd node_index) in
    let* r := push_node nodes left_child node_index in
    let '(nodes, node_index) := r in
    push_node nodes right_child node_index.

  (** creation.py:250-379: one round of the while loop, after popping
      ([root_index], [dim0]) from the stack. *)
  Definition build_visit (g : garbage T) (bb_coords : list box) (n_buckets cells_per_leaf : Z)
             (x : Z * Z) (s : bstate) : res (step bstate (Z * Z)) :=
    let '(root_index, dim_flag) := x in
    let '(BState nodes node_index bb_indices) := s in
    let dim := if (dim_flag <? 0)%Z then (dim_flag + 2)%Z else dim_flag in
    let* root := aget nodes root_index in
    if (nsize root <=? cells_per_leaf)%Z then Ok (Next s [])
    else
      let* r := make_sorted_buckets g bb_coords n_buckets root dim bb_indices in
      let '(range_Rmin, range_Lmax, bucket_length, bb_indices, buckets) := r in
      let not_dim := (dim =? 0)%Z in
      if (cells_per_leaf =? 1)%Z && (nsize root =? 2)%Z then
        (* creation.py:312-320 *)
        let* nodes := update_node nodes root_index (fun nd => set_bounds nd range_Lmax range_Rmin) in
        let left_child := create_node (nptr root) 1 not_dim in
        let right_child := create_node (nptr root + 1) 1 not_dim in
        let* r := add_children nodes root_index node_index left_child right_child in
        let '(nodes, node_index) := r in
        Ok (Next (BState nodes node_index bb_indices) [])
      else
        let* buckets := merge_buckets buckets in
        if existsb (fun b => (bsize b =? nsize root)%Z) buckets then
          (* creation.py:343-358: all cells in one bucket *)
          if (0 <=? dim_flag)%Z then
            let dim_flag := (b2z not_dim - 2)%Z in
            let* nodes := update_node nodes root_index (fun nd => set_dim nd (negb (ndim root))) in
            Ok (Next (BState nodes node_index bb_indices) [(root_index, dim_flag)])
          else
            let* nodes := update_node nodes root_index
                            (fun nd => set_bounds nd (nofZ (-1)) (nofZ (-1))) in
            Ok (Next (BState nodes node_index bb_indices) [])
        else
          (* creation.py:360-379 *)
          let* r := split_plane buckets root range_Lmax range_Rmin bucket_length in
          let '(plane, Lmax, Rmin) := r in
          let* pb := lget buckets plane in
          let right_index := bindex pb in
          let right_size := (nptr root + nsize root - right_index)%Z in
          let left_index := nptr root in
          let left_size := (nsize root - right_size)%Z in
          let* nodes := update_node nodes root_index (fun nd => set_bounds nd Lmax Rmin) in
          let left_child := create_node left_index left_size not_dim in
          let right_child := create_node right_index right_size not_dim in
          let child_ind := node_index in
          let* r := add_children nodes root_index node_index left_child right_child in
          let '(nodes, node_index) := r in
          Ok (Next (BState nodes node_index bb_indices)
                   [ ((child_ind + 1)%Z, b2z (ndim right_child));
                     (child_ind, b2z (ndim left_child)) ]).

  (** creation.py:234-381 *)
  Definition build (g : garbage T) (fuel : nat) (nodes : list node) (node_index : Z)
             (bb_indices : list Z) (bb_coords : list box) (n_buckets cells_per_leaf : Z)
    : res bstate :=
    let* stack := aset (allocate_stack (gZZ g)) 0%Z (0%Z, 0%Z) in
    stack_loop (gZZ g) (build_visit g bb_coords n_buckets cells_per_leaf) fuel stack 1%Z
               (BState nodes node_index bb_indices).

  (** creation.py:385-413.  Only the number of elements is used.
      Returns (nodes[:node_index], bb_indices). *)
  Definition initialize (g : garbage T) (fuel : nat) (n_elements : nat) (bb_coords : list box)
             (n_buckets cells_per_leaf : Z) : res (list node * list Z) :=
    let bb_indices := iota n_elements in
    let n_nodes := pessimistic_n_nodes (Z.of_nat n_elements) in
    let nodes := np_empty (gnode g) (Z.to_nat n_nodes) in
    let nd := create_node 0 (zlen bb_indices) false in
    let* r := push_node nodes nd 0%Z in
    let '(nodes, node_index) := r in
    let* s := build g fuel nodes node_index bb_indices bb_coords n_buckets cells_per_leaf in
    Ok (firstn (Z.to_nat (st_node_index s)) (st_nodes s), st_bbi s).
End Creation.
