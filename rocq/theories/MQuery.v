(** Model of numba_celltree/query.py. *)
From Verif Require Import Base Num MUtils MGeometry MCreation MAlgorithms.

(** numpy slice assignment dst[start:stop] = src for 0 <= start <= stop; a
    source of another length raises ValueError. *)
Definition slice_assign {A} (dst : list A) (start stop : Z) (src : list A) : res (list A) :=
  if (zlen src =? Z.min stop (zlen dst) - start)%Z then
    Ok (firstn (Z.to_nat start) dst ++ src
        ++ skipn (Z.to_nat start + length src) dst)
  else Err EValue.

(** np.array_split(l, k): the first (len mod k) parts have len/k + 1
    elements, the others len/k. *)
Fixpoint split_sizes {A} (sizes : list nat) (l : list A) : list (list A) :=
  match sizes with
  | [] => []
  | n :: t => firstn n l :: split_sizes t (skipn n l)
  end.
Definition array_split {A} (l : list A) (k : nat) : list (list A) :=
  let q := (length l / k)%nat in
  let r := (length l mod k)%nat in
  split_sizes (repeat (S q) r ++ repeat q (k - r)) l.

(** query.py:281-283, 477-479: the offset of every chunk *)
Fixpoint chunk_offsets {A} (start : Z) (chunks : list (list A)) : list Z :=
  match chunks with
  | [] => []
  | c :: t => start :: chunk_offsets (start + zlen c) t
  end.

Section Query.
  Context {T : Type} {NT : Num T}.
  Local Open Scope num_scope.
  Notation point := (point T).
  Notation box := (box T).
  Notation node := (node T).
  Notation celltree := (celltree T).

  (** point[dim], box[k] on the named tuples *)
  Definition pcoord (p : point) (dim : bool) : T := if dim then py p else px p.
  Definition bmin (b : box) (dim : bool) : T := if dim then ymin b else xmin b.
  Definition bmax (b : box) (dim : bool) : T := if dim then ymax b else xmax b.

  (** Number of rounds granted to a traversal (see DESIGN.md: never exhausted) *)
  Definition traverse_fuel (tree : celltree) : nat := S (length (nodes tree)).

  (** query.py:65-73: the common start of the traversals: stack[0] = 0 *)
  Definition traverse {St} (g : garbage T) (tree : celltree)
             (visit : Z -> St -> res (step St Z)) (st : St) : res St :=
    let* stack := aset (allocate_stack (gZ g)) 0%Z 0%Z in
    stack_loop (gZ g) visit (traverse_fuel tree) stack 1%Z st.

  (* ---------------------------------------------------------------- *)
  (** ** points *)

  (** query.py:77-84, 136-141: first element of the leaf passing the test *)
  Fixpoint first_hit (test : Z -> res bool) (l : list Z) : res (option Z) :=
    match l with
    | [] => Ok None
    | i :: t =>
        let* b := test i in
        if b : bool then Ok (Some i) else first_hit test t
    end.

  (** tree.bb_indices[i] for i in range(ptr, ptr + size) *)
  Definition leaf_items (tree : celltree) (nd : node) : res (list Z) :=
    mapres (aget (bb_indices tree))
           (map (fun k => (nptr nd + k)%Z) (iota (Z.to_nat (nsize nd)))).

  (** query.py:87-105 (= 144-162): children to push for a point query *)
  Definition point_children (p : point) (nd : node) : list Z :=
    let x := pcoord p (ndim nd) in
    let left := x <=? nLmax nd in
    let right := x >=? nRmin nd in
    let left_child := nchild nd in
    let right_child := (left_child + 1)%Z in
    if left && right then
      if (nLmax nd - x) <? (x - nRmin nd) then [left_child; right_child]
      else [right_child; left_child]
    else if left then [left_child]
    else if right then [right_child]
    else [].

  (** query.py:71-105.  Simplification: the bb_indices of the leaf are read
      before its elements are tested; all reads of a leaf are in bounds
      whenever the tree is valid, which is proved.  State: return value. *)
  Definition point_visit (tree : celltree) (test : Z -> res bool) (p : point)
             (node_index : Z) (st : Z) : res (step Z Z) :=
    let* nd := aget (nodes tree) node_index in
    if (nchild nd =? -1)%Z then
      let* items := leaf_items tree nd in
      let* h := first_hit test items in
      match h with
      | Some i => Ok (Return i)
      | None => Ok (Next st [])
      end
    else Ok (Next st (point_children p nd)).

  (** query.py:79-83 *)
  Definition face_test (g : garbage T) (tree : celltree) (p : point) (tolerance : T)
             (bbox_index : Z) : res bool :=
    let* face := aget (elements tree) bbox_index in
    let* poly := copy_vertices_into (vertices tree) face (allocate_polygon g) in
    point_in_polygon_or_on_edge p poly tolerance.

  (** query.py:64-107 *)
  Definition locate_point (g : garbage T) (p : point) (tree : celltree) (tolerance : T)
    : res Z :=
    traverse g tree (point_visit tree (face_test g tree p tolerance) p) (-1)%Z.

  (** query.py:111-117 *)
  Definition locate_points (g : garbage T) (points : list point) (tree : celltree)
             (tolerance : T) : res (list Z) :=
    mapres (fun p => locate_point g p tree tolerance) points.

  (** query.py:138-140 *)
  Definition edge_test (g : garbage T) (tree : celltree) (p : point) (tolerance : T)
             (bbox_index : Z) : res bool :=
    let* edge := aget (elements tree) bbox_index in
    let* segment := copy_vertices_into (vertices tree) edge (allocate_polygon g) in
    point_on_edge p segment tolerance.

  (** query.py:122-164 *)
  Definition locate_point_on_edge (g : garbage T) (p : point) (tree : celltree) (tolerance : T)
    : res Z :=
    traverse g tree (point_visit tree (edge_test g tree p tolerance) p) (-1)%Z.

  (** query.py:168-174 *)
  Definition locate_points_on_edge (g : garbage T) (points : list point) (tree : celltree)
             (tolerance : T) : res (list Z) :=
    mapres (fun p => locate_point_on_edge g p tree tolerance) points.

  (* ---------------------------------------------------------------- *)
  (** ** boxes *)

  (** State of the collecting traversals: result rows, indices_size, count.
      [count = -1] signals an exhausted buffer. *)
  Record collect (R : Type) := Collect { c_rows : list R; c_size : Z; c_count : Z }.
  Arguments Collect {R}.
  Arguments c_rows {R}.
  Arguments c_size {R}.
  Arguments c_count {R}.

  (** query.py:212-226, 366-382: write one row or give up.
      [inr st]: continue, [inl st]: return -1, indices_size *)
  Definition emit {R} (row : R) (st : collect R) : res (collect R + collect R) :=
    let capacity := zlen (c_rows st) in
    if (capacity <=? c_size st)%Z then
      Ok (inl (Collect (c_rows st) (c_size st) (-1)%Z))
    else
      let* rows := aset (c_rows st) (c_size st) row in
      Ok (inr (Collect rows (c_size st + 1)%Z (c_count st + 1)%Z)).

  Fixpoint emit_hits {R} (hit : Z -> res (option R)) (l : list Z) (st : collect R)
    : res (collect R + collect R) :=
    match l with
    | [] => Ok (inr st)
    | i :: t =>
        let* h := hit i in
        match h with
        | None => emit_hits hit t st
        | Some row =>
            let* r := emit row st in
            match r with
            | inl st => Ok (inl st)
            | inr st => emit_hits hit t st
            end
        end
    end.

  Definition collect_visit {R} (tree : celltree) (hit : Z -> res (option R))
             (children : node -> res (list Z))
             (node_index : Z) (st : collect R) : res (step (collect R) Z) :=
    let* nd := aget (nodes tree) node_index in
    if (nchild nd =? -1)%Z then
      let* items := leaf_items tree nd in
      let* r := emit_hits hit items st in
      match r with
      | inl st => Ok (Return st)
      | inr st => Ok (Next st [])
      end
    else
      let* cs := children nd in
      Ok (Next st cs).

  (** query.py:228-242 *)
  Definition box_children (bx : box) (nd : node) : res (list Z) :=
    let left := bmin bx (ndim nd) <=? nLmax nd in
    let right := bmax bx (ndim nd) >=? nRmin nd in
    let left_child := nchild nd in
    let right_child := (left_child + 1)%Z in
    Ok (if left && right then [left_child; right_child]
        else if left then [left_child]
        else if right then [right_child]
        else []).

  (** query.py:213-216 *)
  Definition box_hit (tree : celltree) (bx : box) (index : Z) (bbox_index : Z)
    : res (option (Z * Z)) :=
    let* leaf_box := aget (bb_coords tree) bbox_index in
    Ok (if boxes_intersect bx leaf_box then Some (index, bbox_index) else None).

  (** query.py:178-244.  Returns (indices, indices_size, count). *)
  Definition locate_box (g : garbage T) (bx : box) (tree : celltree)
             (indices : list (Z * Z)) (indices_size index : Z) : res (collect (Z * Z)) :=
    if negb (boxes_intersect bx (bbox tree)) then Ok (Collect indices indices_size 0%Z)
    else
      traverse g tree (collect_visit tree (box_hit tree bx index) (box_children bx))
               (Collect indices indices_size 0%Z).

  (** query.py:265-273: while True: ...; retry with a grown buffer *)
  Fixpoint retry {R} (mem : nat -> nat -> R)
           (run : list R -> Z -> res (collect R)) (fuel : nat)
           (rows : list R) (indices_size total_count : Z) : res (list R * Z * Z) :=
    match fuel with
    | O => Err EFuel
    | S fuel' =>
        let* st := run rows indices_size in
        if negb (c_count st =? -1)%Z then Ok (c_rows st, c_size st, c_count st)
        else retry mem run fuel' (grow mem (c_rows st)) total_count total_count
    end.

  (** query.py:258-275 and 449-472: the loop over the query items *)
  Fixpoint query_loop {Q R} (mem : nat -> nat -> R)
           (run : Q -> Z -> list R -> Z -> res (collect R)) (fuel : nat)
           (l : list Q) (index : Z) (rows : list R) (indices_size total_count : Z)
    : res (list R * Z) :=
    match l with
    | [] => Ok (rows, total_count)
    | q :: t =>
        let* x := retry mem (run q index) fuel rows indices_size total_count in
        let '(rows, indices_size, count) := x in
        query_loop mem run fuel t (index + 1)%Z rows indices_size (total_count + count)%Z
    end.

  (** Rounds granted to a retry loop: one more than the number of elements *)
  Definition retry_fuel (tree : celltree) : nat := S (length (bb_coords tree)).

  (** query.py:248-275 *)
  Definition locate_boxes_helper (g : garbage T) (box_coords : list box) (tree : celltree)
             (offset : Z) : res (list (Z * Z) * Z) :=
    let n_box := length box_coords in
    let indices := np_empty (gZZ g) (Nat.max n_box 256) in
    query_loop (gZZ g)
      (fun bx index indices indices_size => locate_box g bx tree indices indices_size index)
      (retry_fuel tree) box_coords offset indices 0%Z 0%Z.

  (** query.py:47-59 and 492-498: copy the used part of every buffer.
      [sum(counts)] rows are allocated. *)
  Definition sumZ (l : list Z) : Z := fold_left Z.add l 0%Z.
  Fixpoint concat_loop {R} (parts : list (list R * Z)) (start : Z) (out : list R)
    : res (list R) :=
    match parts with
    | [] => Ok out
    | (rows, size) :: t =>
        let stop := (start + size)%Z in
        let* out := slice_assign out start stop (slice rows 0 size) in
        concat_loop t stop out
    end.
  Definition concatenate {R} (mem : nat -> nat -> R) (parts : list (list R * Z))
    : res (list R) :=
    let total_size := sumZ (map snd parts) in
    concat_loop parts 0%Z (np_empty mem (Z.to_nat total_size)).

  (** query.py:279-289.  The result arrays ii, jj are returned as a list of
      pairs. *)
  Definition locate_boxes (g : garbage T) (box_coords : list box) (tree : celltree)
             (n_chunks : nat) : res (list (Z * Z)) :=
    let chunks := array_split box_coords n_chunks in
    let offsets := chunk_offsets 0%Z chunks in
    let* parts := mapres (fun co => locate_boxes_helper g (fst co) tree (snd co))
                         (combine chunks offsets) in
    concatenate (gZZ g) parts.

  (* ---------------------------------------------------------------- *)
  (** ** edges *)

  (** A row of the edge queries: (index, bbox_index) and (c, d).
      Simplification: the arrays [indices] and [xy], which always have the
      same length, are one array of rows. *)
  Definition erow : Type := (Z * Z) * (option point * option point).

  (** query.py:293-306 *)
  Definition compute_edge_edge_intersect (tree : celltree) (bbox_index : Z) (a b : point)
    : res (option (option point * option point)) :=
    let* tree_edge := aget (elements tree) bbox_index in
    let* i := aget tree_edge 0%Z in
    let* j := aget tree_edge 1%Z in
    let* p := aget (vertices tree) i in
    let* q := aget (vertices tree) j in
    let* r := lines_intersect a b p q in
    let '(intersects, c) := r in
    Ok (if intersects : bool then Some (c, c) else None).

  (** query.py:310-328.  [csfuel] is the number of rounds granted to
      Cohen-Sutherland. *)
  Definition compute_edge_face_intersect (g : garbage T) (csfuel : nat) (tree : celltree)
             (bbox_index : Z) (a b : point) : res (option (option point * option point)) :=
    let* bx := aget (bb_coords tree) bbox_index in
    let* c := cohen_sutherland_line_box_clip csfuel a b bx in
    match c with
    | None => Ok None
    | Some _ =>
        let* face := aget (elements tree) bbox_index in
        let* polygon := copy_vertices_into (vertices tree) face (allocate_polygon g) in
        let tolerance := nmax nmintol
              (ntolfac * nmax (xmax bx - xmin bx) (ymax bx - ymin bx)) in
        let* c := cyrus_beck_line_polygon_clip a b polygon tolerance in
        Ok (match c with
            | Some (c, d) => Some (Some c, Some d)
            | None => None
            end)
    end.

  (** query.py:385-431 *)
  Definition edge_children (a b : point) (nd : node) : res (list Z) :=
    let V := to_vector a b in
    let d := ndim nd in
    let dx := pcoord V d in
    let dx_left := if dx >? 0 then nLmax nd - pcoord a d else nLmax nd - pcoord b d in
    let dx_right := if dx >? 0 then nRmin nd - pcoord b d else nRmin nd - pcoord a d in
    let left := dx_left >=? 0 in
    let right := dx_right <=? 0 in
    let* lr :=
      if dx >? 0 then
        let* left := if left then let* t_left := ndiv dx_left dx in Ok (t_left >=? 0)
                     else Ok false in
        let* right := if right then let* t_right := ndiv dx_right dx in Ok (t_right <=? 1)
                      else Ok false in
        Ok (left, right)
      else if dx <? 0 then
        let* left := if left then let* t_left := ndiv dx_left dx in Ok ((1 - t_left) >=? 0)
                     else Ok false in
        let* right := if right then let* t_right := ndiv dx_right dx in Ok ((1 - t_right) <=? 1)
                      else Ok false in
        Ok (left, right)
      else Ok (left, right) in
    let '(go_left, go_right) := lr in
    let left_child := nchild nd in
    let right_child := (left_child + 1)%Z in
    Ok (if go_left && go_right then [left_child; right_child]
        else if go_left then [left_child]
        else if go_right then [right_child]
        else []).

  Definition edge_hit (f : Z -> point -> point -> res (option (option point * option point)))
             (a b : point) (index : Z) (bbox_index : Z) : res (option erow) :=
    let* r := f bbox_index a b in
    Ok (match r with
        | Some cd => Some ((index, bbox_index), cd)
        | None => None
        end).

  (** query.py:337-433 *)
  Definition locate_edge (g : garbage T) (csfuel : nat)
             (f : Z -> point -> point -> res (option (option point * option point)))
             (ab : point * point) (tree : celltree)
             (rows : list erow) (indices_size index : Z) : res (collect erow) :=
    let '(a, b) := ab in
    let* c := cohen_sutherland_line_box_clip csfuel a b (bbox tree) in
    match c with
    | None => Ok (Collect rows indices_size 0%Z)
    | Some _ =>
        traverse g tree (collect_visit tree (edge_hit f a b index) (edge_children a b))
                 (Collect rows indices_size 0%Z)
    end.

  (** garbage rows of the two arrays *)
  Definition grow_ (g : garbage T) : nat -> nat -> erow := fun n k => (gZZ g n k, gpp g n k).

  (** query.py:436-472 *)
  Definition locate_edges_helper (g : garbage T) (csfuel : nat)
             (f : Z -> point -> point -> res (option (option point * option point)))
             (edge_coords : list (point * point)) (tree : celltree) (offset : Z)
    : res (list erow * Z) :=
    let n := Nat.max (length edge_coords) 256 in
    query_loop (grow_ g)
      (fun ab index rows indices_size => locate_edge g csfuel f ab tree rows indices_size index)
      (retry_fuel tree) edge_coords offset (np_empty (grow_ g) n) 0%Z 0%Z.

  (** query.py:475-501 *)
  Definition locate_edges (g : garbage T) (csfuel : nat)
             (f : Z -> point -> point -> res (option (option point * option point)))
             (edge_coords : list (point * point)) (tree : celltree) (n_chunks : nat)
    : res (list erow) :=
    let chunks := array_split edge_coords n_chunks in
    let offsets := chunk_offsets 0%Z chunks in
    let* parts := mapres (fun co => locate_edges_helper g csfuel f (fst co) tree (snd co))
                         (combine chunks offsets) in
    concatenate (grow_ g) parts.

  (** query.py:511-519 *)
  Definition locate_edge_edges (g : garbage T) (csfuel : nat) (edge_coords : list (point * point))
             (tree : celltree) (n_chunks : nat) : res (list erow) :=
    locate_edges g csfuel (compute_edge_edge_intersect tree) edge_coords tree n_chunks.
  Definition locate_edge_faces (g : garbage T) (csfuel : nat) (edge_coords : list (point * point))
             (tree : celltree) (n_chunks : nat) : res (list erow) :=
    locate_edges g csfuel (compute_edge_face_intersect g csfuel tree) edge_coords tree n_chunks.

  (* ---------------------------------------------------------------- *)
  (** ** node bounds *)

  (** node_bounds[i, k] = v *)
  Definition set_col (b : box) (k : Z) (v : T) : res box :=
    let* r := aset [xmin b; xmax b; ymin b; ymax b] k v in
    match r with
    | [a; b; c; d] => Ok (Box a b c d)
    | _ => Err EIndex
    end.

  (** query.py:550-580: one round.  Stack entries: node_index, parent_index,
      side. *)
  Definition bounds_visit (tree : celltree) (x : Z * Z * Z) (node_bounds : list box)
    : res (step (list box) (Z * Z * Z)) :=
    let '(node_index, parent_index, side) := x in
    let* parent := aget (nodes tree) parent_index in
    let* bx := aget node_bounds parent_index in
    let dim := if ndim parent then 1%Z else 0%Z in
    let* node_bounds := aset node_bounds node_index bx in
    let bound := if negb (side =? 0)%Z then nLmax parent else nRmin parent in
    let* row := aget node_bounds node_index in
    let* row := set_col row (dim * 2 + side)%Z bound in
    let* node_bounds := aset node_bounds node_index row in
    let* nd := aget (nodes tree) node_index in
    if (nchild nd =? -1)%Z then Ok (Next node_bounds [])
    else
      let left_child := nchild nd in
      let right_child := (left_child + 1)%Z in
      Ok (Next node_bounds [(right_child, node_index, 0%Z); (left_child, node_index, 1%Z)]).

  (** query.py:529-582 *)
  Definition collect_node_bounds (g : garbage T) (tree : celltree) : res (list box) :=
    let node_bounds := np_empty (gbox g) (length (nodes tree)) in
    let* node_bounds := aset node_bounds 0%Z (bbox tree) in
    let* stack := aset (allocate_stack (gZZZ g)) 0%Z (2%Z, 0%Z, 0%Z) in
    let* stack := aset stack 1%Z (1%Z, 0%Z, 1%Z) in
    stack_loop (gZZZ g) (bounds_visit tree) (traverse_fuel tree) stack 2%Z node_bounds.

  (** query.py:598-622: one round *)
  Definition validate_visit (tree : celltree) (node_bounds : list box)
             (node_index : Z) (validity : list bool) : res (step (list bool) Z) :=
    let* bx := aget node_bounds node_index in
    let* nd := aget (nodes tree) node_index in
    if (nchild nd =? -1)%Z then
      let* items := leaf_items tree nd in
      let* valid := foldres items (fun i valid =>
          let* lb := aget (bb_coords tree) i in
          Ok (valid && box_contained lb bx)) true in
      let* validity := aset validity node_index valid in
      Ok (Next validity [])
    else
      let left_child := nchild nd in
      let right_child := (left_child + 1)%Z in
      let* left_box := aget node_bounds left_child in
      let* right_box := aget node_bounds right_child in
      let* validity := aset validity node_index
                            (box_contained left_box bx && box_contained right_box bx) in
      Ok (Next validity [right_child; left_child]).

  (** query.py:586-624 *)
  Definition validate_node_bounds (g : garbage T) (tree : celltree) (node_bounds : list box)
    : res (list bool) :=
    traverse g tree (validate_visit tree node_bounds)
             (repeat false (length (nodes tree))).
End Query.
Arguments Collect {R}.
Arguments c_rows {R}.
Arguments c_size {R}.
Arguments c_count {R}.
