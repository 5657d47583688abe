(** Model of numba_celltree/geometry_utils.py.

    [as_point], [as_box] (lines 29-40) only re-pack a row of an
    array into a named tuple; in the model the rows already are records, so
    they are the identity and do not appear. *)
From Verif Require Import Base Num MUtils.

Section Geometry.
  Context {T : Type} {NT : Num T}.
  Local Open Scope num_scope.
  Notation point := (point T).
  Notation box := (box T).

  (** geometry_utils.py:24-25 *)
  Definition to_vector (a b : point) : point := Pt (px b - px a) (py b - py a).

  (** geometry_utils.py:53-54 *)
  Definition to_point (t : T) (a V : point) : point :=
    Pt (px a + t * px V) (py a + t * py V).

  (** geometry_utils.py:58-59 *)
  Definition cross_product (u v : point) : T := px u * py v - py u * px v.

  (** geometry_utils.py:63-64 *)
  Definition dot_product (u v : point) : T := px u * px v + py u * py v.

  (** geometry_utils.py:68-69 *)
  Definition length_squared (v : point) : T := px v * px v + py v * py v.

  (** geometry_utils.py:73-79: for i in range(3, n): if face[i] == FILL_VALUE:
      return i; return n.  [polygon_length_aux k l] scans [l], the part of the
      face from position [k]. *)
  Fixpoint polygon_length_aux (k : nat) (l : list Z) : nat :=
    match l with
    | [] => k
    | x :: t => if (x =? FILL_VALUE)%Z then k else polygon_length_aux (S k) t
    end.
  Definition polygon_length (face : list Z) : nat :=
    let n := length face in
    if (n <=? 3)%nat then n else polygon_length_aux 3 (skipn 3 face).

  (** geometry_utils.py:83-95.  The loop over i in range(2, length) is a
      recursion over the remaining vertices; [b] is never read again in the
      Python loop (U = V is what is used). *)
  Fixpoint polygon_area_loop (a U : point) (l : list point) (area : T) : T :=
    match l with
    | [] => area
    | c :: t =>
        let V := to_vector c a in
        polygon_area_loop a V t (area + nabs (cross_product U V))
    end.
  Definition polygon_area (polygon : list point) : res T :=
    match polygon with
    | a :: b :: rest =>
        Ok (nhalf * polygon_area_loop a (to_vector a b) rest 0)
    | _ => Err EIndex
    end.

  (** geometry_utils.py:142-145, 216-219: the ray crossing condition.  The
      division is only evaluated if the first conjunct holds. *)
  Definition crosses (p v0 v1 : point) : res bool :=
    if negb (Bool.eqb (py v0 >? py p) (py v1 >? py p)) then
      let* q := ndiv ((px v1 - px v0) * (py p - py v0)) (py v1 - py v0) in
      Ok (px p <? q + px v0)
    else Ok false.

  (** geometry_utils.py:99-147 *)
  Fixpoint point_in_polygon_loop (p v0 : point) (l : list point) (c : bool) : res bool :=
    match l with
    | [] => Ok c
    | v1 :: t =>
        let* x := crosses p v0 v1 in
        point_in_polygon_loop p v1 t (if x then negb c else c)
    end.
  Definition point_in_polygon (p : point) (poly : list point) : res bool :=
    let* v0 := aget poly (-1)%Z in
    point_in_polygon_loop p v0 poly false.

  (** geometry_utils.py:151-166 *)
  Definition within_perpendicular_distance (UxV : T) (U : point) (tolerance : T) : bool :=
    (UxV * UxV) <? ((tolerance * length_squared U) * tolerance).

  (** geometry_utils.py:170-192 *)
  Definition in_bounds (p a b : point) : bool :=
    let xmin := nmin (px a) (px b) in
    let xmax := nmax (px a) (px b) in
    let ymin := nmin (py a) (py b) in
    let ymax := nmax (py a) (py b) in
    let dx := xmax - xmin in
    let dy := ymax - ymin in
    let use_x_bound := nabs dx >=? nabs dy in
    (use_x_bound && ((px p >=? xmin) && (px p <=? xmax)))
    || (negb use_x_bound && ((py p >=? ymin) && (py p <=? ymax))).

  (** namedtuple equality: element-wise [==] *)
  Definition point_eqb (a b : point) : bool := (px a =? px b) && (py a =? py b).

  (** geometry_utils.py:196-223; [v1 == v0] skips the vertex *)
  Fixpoint pip_or_edge_loop (p : point) (tolerance : T) (v0 U : point)
           (l : list point) (c : bool) : res bool :=
    match l with
    | [] => Ok c
    | v1 :: t =>
        if point_eqb v1 v0 then pip_or_edge_loop p tolerance v0 U t c
        else
          let V := to_vector p v1 in
          let A := cross_product U V in
          let W := to_vector v0 v1 in
          if within_perpendicular_distance A W tolerance && in_bounds p v0 v1
          then Ok true
          else
            let* x := crosses p v0 v1 in
            pip_or_edge_loop p tolerance v1 V t (if x then negb c else c)
    end.
  Definition point_in_polygon_or_on_edge (p : point) (poly : list point) (tolerance : T)
    : res bool :=
    let* v0 := aget poly (-1)%Z in
    pip_or_edge_loop p tolerance v0 (to_vector p v0) poly false.

  (** geometry_utils.py:227-238 *)
  Definition point_on_edge (p : point) (edge : list point) (tolerance : T) : res bool :=
    let* v0 := aget edge 0%Z in
    let* v1 := aget edge 1%Z in
    if point_eqb v1 v0 then Ok false
    else
      let U := to_vector p v0 in
      let V := to_vector p v1 in
      let W := to_vector v0 v1 in
      let A := cross_product U V in
      Ok (within_perpendicular_distance A W tolerance && in_bounds p v0 v1).

  (** geometry_utils.py:242-270; the Triangle tuple is three points *)
  Definition point_in_triangle (p ta tb tc : point) (tolerance : T) : bool :=
    let ap := to_vector ta p in
    let bp := to_vector tb p in
    let cp := to_vector tc p in
    let ab := to_vector ta tb in
    let bc := to_vector tb tc in
    let ca := to_vector tc ta in
    let A := cross_product ab ap in
    let B := cross_product bc bp in
    let C := cross_product ca cp in
    let signA := A >? 0 in
    let signB := B >? 0 in
    let signC := C >? 0 in
    if Bool.eqb signA signB && Bool.eqb signB signC then true
    else
      (within_perpendicular_distance A ab tolerance && in_bounds p ta tb)
      || (within_perpendicular_distance B bc tolerance && in_bounds p tb tc)
      || (within_perpendicular_distance C ca tolerance && in_bounds p tc ta).

  (** geometry_utils.py:43-49 as_triangle *)
  Definition as_triangle (vertices : list point) (face : list Z) : res (point * point * point) :=
    let* i := aget face 0%Z in let* a := aget vertices i in
    let* i := aget face 1%Z in let* b := aget vertices i in
    let* i := aget face 2%Z in let* c := aget vertices i in
    Ok (a, b, c).

  (** geometry_utils.py:273-289 points_in_triangles *)
  Definition points_in_triangles (points : list point) (face_indices : list Z)
             (faces : list (list Z)) (vertices : list point) (tolerance : T) : res (list bool) :=
    mapres (fun i =>
      let* face_index := aget face_indices i in
      let* face := aget faces face_index in
      let* t := as_triangle vertices face in
      let '(a, b, c) := t in
      let* p := aget points i in
      Ok (point_in_triangle p a b c tolerance)) (iota (length points)).

  (** geometry_utils.py:293-300 *)
  Definition boxes_intersect (a b : box) : bool :=
    (xmin a <? xmax b) && (xmin b <? xmax a) && (ymin a <? ymax b) && (ymin b <? ymax a).

  (** geometry_utils.py:304-315 *)
  Definition box_contained (a b : box) : bool :=
    (xmin a >=? xmin b) && (xmax a <=? xmax b) && (ymin a >=? ymin b) && (ymax a <=? ymax b).

  (** geometry_utils.py:319-322 *)
  Definition left_of (a p U : point) : bool :=
    px U * (py a - py p) >? py U * (px a - px p).

  (** geometry_utils.py:326-329 *)
  Definition has_overlap (a b p q tolerance : T) : bool :=
    ((nmin a b - nmax p q) <? tolerance) && ((nmin p q - nmax a b) <? tolerance).

  (** geometry_utils.py:333-345.  A returned (nan, nan) is [None]. *)
  Definition intersection_location_point (V U a p : point) (tolerance : T)
    : res (option point) :=
    let denom := cross_product V U in
    if within_perpendicular_distance denom V tolerance then Ok None
    else
      let R := to_vector a p in
      let* t := ndiv (cross_product R U) denom in
      Ok (Some (Pt (px a + t * px V) (py a + t * py V))).

  (** geometry_utils.py:349-374.  (nan, nan) is [None]. *)
  Definition midpoint_collinear_lines (a b p q : point) : option point :=
    let swap_ab := (px a >? px b) || ((px a =? px b) && (py a >? py b)) in
    let a' := if swap_ab then b else a in
    let b' := if swap_ab then a else b in
    let swap_pq := (px p >? px q) || ((px p =? px q) && (py p >? py q)) in
    let p' := if swap_pq then q else p in
    let q' := if swap_pq then p else q in
    let overlap_start_x := nmax (px a') (px p') in
    let overlap_start_y := nmax (py a') (py p') in
    let overlap_end_x := nmin (px b') (px q') in
    let overlap_end_y := nmin (py b') (py q') in
    if (overlap_start_x >? overlap_end_x) || (overlap_start_y >? overlap_end_y) then None
    else Some (Pt (nhalf * (overlap_start_x + overlap_end_x))
                  (nhalf * (overlap_start_y + overlap_end_y))).

  (** geometry_utils.py:378-418.  Result: the boolean, and the coordinates
      ([None] = (nan, nan)). *)
  Definition lines_intersect (a b p q : point) : res (bool * option point) :=
    let V := to_vector a b in
    let U := to_vector p q in
    if ((px U =? 0) && (py U =? 0)) || ((px V =? 0) && (py V =? 0)) then Ok (false, None)
    else if ((px U =? 0) && (px V =? 0)) && negb (px a =? px p) then Ok (false, None)
    else if ((py U =? 0) && (py V =? 0)) && negb (py a =? py p) then Ok (false, None)
    else
      let tolerance := nmax nmintol (ntolfac * nmax (nabs (px U)) (nabs (py U))) in
      if negb (has_overlap (px a) (px b) (px p) (px q) tolerance)
         || negb (has_overlap (py a) (py b) (py p) (py q) tolerance)
      then Ok (false, None)
      else if negb (Bool.eqb (left_of a p U) (left_of b p U))
              && negb (Bool.eqb (left_of p a V) (left_of q a V))
      then
        let* xy := intersection_location_point V U a p tolerance in
        Ok (true, xy)
      else
        let R := to_vector a p in
        let S := to_vector a q in
        if within_perpendicular_distance (cross_product V R) V tolerance
           && within_perpendicular_distance (cross_product V S) V tolerance
        then Ok (true, midpoint_collinear_lines a b p q)
        else Ok (false, None).

  (** geometry_utils.py:422-440 *)
  Fixpoint bounding_box_loop (vertices : list point) (l : list Z) (bb : box) : res box :=
    match l with
    | [] => Ok bb
    | index :: t =>
        if (index =? FILL_VALUE)%Z then Ok bb
        else
          let* v := aget vertices index in
          bounding_box_loop vertices t
            (Box (nmin (xmin bb) (px v)) (nmax (xmax bb) (px v))
                 (nmin (ymin bb) (py v)) (nmax (ymax bb) (py v)))
    end.
  Definition bounding_box (polygon : list Z) (vertices : list point) : res box :=
    let* i0 := aget polygon 0%Z in
    let* v := aget vertices i0 in
    bounding_box_loop vertices (skipn 1 polygon) (Box (px v) (px v) (py v) (py v)).

  (** geometry_utils.py:444-456 (sequential reading; see MPar.v for prange) *)
  Definition build_face_bboxes (faces : list (list Z)) (vertices : list point)
    : res (list box) :=
    mapres (fun polygon => bounding_box polygon vertices) faces.

  (** geometry_utils.py:460-470 *)
  Definition edge_bounding_box (edge : list Z) (vertices : list point) (tolerance : T)
    : res box :=
    let* e0 := aget edge 0%Z in
    let* e1 := aget edge 1%Z in
    let* v0 := aget vertices e0 in
    let* v1 := aget vertices e1 in
    Ok (Box (nmin (px v0 - tolerance) (px v1 - tolerance))
            (nmax (px v0 + tolerance) (px v1 + tolerance))
            (nmin (py v0 - tolerance) (py v1 - tolerance))
            (nmax (py v0 + tolerance) (py v1 + tolerance))).

  (** geometry_utils.py:474-487 *)
  Definition build_edge_bboxes (edges : list (list Z)) (vertices : list point) (tolerance : T)
    : res (list box) :=
    mapres (fun edge => edge_bounding_box edge vertices tolerance) edges.

  (** geometry_utils.py:502-510 copy_vertices_into: writes the first [length]
      entries of the work array and returns that part.  Simplification: the
      work array is not threaded to the next call; its contents on entry are
      arbitrary in every theorem. *)
  Definition copy_vertices_into (vertices : list point) (face : list Z) (out : list point)
    : res (list point) :=
    let length := polygon_length face in
    let* out := for_range 0 (Z.of_nat length)
      (fun i out =>
         let* f := aget face i in
         let* v := aget vertices f in
         aset out i v) out in
    Ok (firstn length out).

  (** geometry_utils.py:491-498 copy_vertices: the same into a fresh
      (MAX_N_VERTEX, 2) array, utils.py:123-128 / 147-148 *)
  Definition allocate_polygon (g : garbage T) : list point :=
    np_empty (gpt g) MAX_N_VERTEX.
  Definition copy_vertices (g : garbage T) (vertices : list point) (face : list Z)
    : res (list point) :=
    copy_vertices_into vertices face (allocate_polygon g).

  (** geometry_utils.py:514-524 *)
  Definition copy_box_vertices (b : box) : list point :=
    [ Pt (xmin b) (ymin b); Pt (xmax b) (ymin b);
      Pt (xmax b) (ymax b); Pt (xmin b) (ymax b) ].

  (** geometry_utils.py:528-529 *)
  Definition point_inside_box (a : point) (b : box) : bool :=
    (xmin b <? px a) && (px a <? xmax b) && (ymin b <? py a) && (py a <? ymax b).

  (** geometry_utils.py:533-538 flip: in-place reversal of the first [length]
      entries *)
  Definition flip (face : list Z) (length : Z) : res (list Z) :=
    let end_ := (length - 1)%Z in
    for_range 0 (length / 2)%Z
      (fun i face =>
         let j := (end_ - i)%Z in
         let* fj := aget face j in
         let* fi := aget face i in
         let* face := aset face i fj in
         aset face j fi) face.

  (** geometry_utils.py:549-560: body of the loop over the vertices of one
      face.  There is no break after [flip]. *)
  Fixpoint ccw_loop (vertices : list point) (length : nat) (fuel : nat) (i : Z)
           (face : list Z) (a b : point) : res (list Z) :=
    match fuel with
    | O => Ok face
    | S fuel' =>
        let* fi := aget face i in
        let* c := aget vertices fi in
        let u := to_vector a b in
        let v := to_vector a c in
        let product := cross_product u v in
        if product =? 0 then ccw_loop vertices length fuel' (i + 1) face b c
        else if product <? 0 then
          let* face := flip face (Z.of_nat length) in
          ccw_loop vertices length fuel' (i + 1) face a b
        else Ok face
    end.

  (** geometry_utils.py:545-560: one iteration of the prange loop *)
  Definition ccw_face (vertices : list point) (face : list Z) : res (list Z) :=
    let length := polygon_length face in
    let* fa := aget face (Z.of_nat length - 2)%Z in
    let* fb := aget face (Z.of_nat length - 1)%Z in
    let* a := aget vertices fa in
    let* b := aget vertices fb in
    ccw_loop vertices length length 0%Z face a b.

  (** geometry_utils.py:542-561 (sequential reading; see MPar.v for prange) *)
  Definition counter_clockwise (vertices : list point) (faces : list (list Z))
    : res (list (list Z)) :=
    mapres (ccw_face vertices) faces.
End Geometry.
