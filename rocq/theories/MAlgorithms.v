(** Model of numba_celltree/algorithms/*.py. *)
From Verif Require Import Base Num MUtils MGeometry.

Section Algorithms.
  Context {T : Type} {NT : Num T}.
  Local Open Scope num_scope.
  Notation point := (point T).
  Notation box := (box T).

  (** Result of the clipping functions.  [None] is
      (False, Point(nan, nan), Point(nan, nan)), [Some (c, d)] is (True, c, d). *)
  Definition clip := option (point * point).

  (* ---------------------------------------------------------------- *)
  (** ** cohen_sutherland.py *)

  (** cohen_sutherland.py:15 *)
  Definition LEFT : Z := 1.
  Definition RIGHT : Z := 2.
  Definition LOWER : Z := 4.
  Definition UPPER : Z := 8.

  (** cohen_sutherland.py:18-33 *)
  Definition get_clip (a : point) (b : box) : Z :=
    let p := if px a <? xmin b then Z.lor 0 LEFT
             else if px a >? xmax b then Z.lor 0 RIGHT
             else 0%Z in
    if py a <? ymin b then Z.lor p LOWER
    else if py a >? ymax b then Z.lor p UPPER
    else p.

  (** cohen_sutherland.py:70-86: the new point for outcode [opt] *)
  Definition cs_move (a : point) (dx dy : T) (b : box) (opt : Z) : res point :=
    if negb (Z.land opt UPPER =? 0)%Z then
      let* q := ndiv (dx * (ymax b - py a)) dy in Ok (Pt (px a + q) (ymax b))
    else if negb (Z.land opt LOWER =? 0)%Z then
      let* q := ndiv (dx * (ymin b - py a)) dy in Ok (Pt (px a + q) (ymin b))
    else if negb (Z.land opt RIGHT =? 0)%Z then
      let* q := ndiv (dy * (xmax b - px a)) dx in Ok (Pt (xmax b) (py a + q))
    else if negb (Z.land opt LEFT =? 0)%Z then
      let* q := ndiv (dy * (xmin b - px a)) dx in Ok (Pt (xmin b) (py a + q))
    else Err ERuntime.

  (** cohen_sutherland.py:62-101.  (dx, dy) is always b - a here. *)
  Fixpoint cs_loop (bx : box) (fuel : nat) (a b : point) (k1 k2 : Z) : res clip :=
    if (Z.lor k1 k2 =? 0)%Z then Ok (Some (a, b))
    else
      match fuel with
      | O => Err EFuel
      | S fuel' =>
          if negb (Z.land k1 k2 =? 0)%Z then Ok None
          else
            let dx := px b - px a in
            let dy := py b - py a in
            let opt := if negb (k1 =? 0)%Z then k1 else k2 in
            let* xy := cs_move a dx dy bx opt in
            let a' := if (opt =? k1)%Z then xy else a in
            let k1' := if (opt =? k1)%Z then get_clip xy bx else k1 in
            let b' := if (opt =? k1)%Z then b else xy in
            let k2' := if (opt =? k1)%Z then k2 else get_clip xy bx in
            let dx := px b' - px a' in
            let dy := py b' - py a' in
            if (dx =? 0) && (dy =? 0) then Ok None
            else cs_loop bx fuel' a' b' k1' k2'
      end.

  (** cohen_sutherland.py:36-101 *)
  Definition cohen_sutherland_line_box_clip (fuel : nat) (a b : point) (bx : box) : res clip :=
    let dx := px b - px a in
    let dy := py b - py a in
    if (dx =? 0) && (dy =? 0) then Ok None
    else cs_loop bx fuel a b (get_clip a bx) (get_clip b bx).

  (* ---------------------------------------------------------------- *)
  (** ** liang_barsky.py *)

  (** liang_barsky.py:34-55: [None] is the early NO_INTERSECTION *)
  Fixpoint lb_loop (l : list (T * T)) (t0 t1 : T) : res (option (T * T)) :=
    match l with
    | [] => Ok (Some (t0, t1))
    | (p_i, q_i) :: rest =>
        if p_i =? 0 then
          if q_i <? 0 then Ok None else lb_loop rest t0 t1
        else
          let* t := ndiv q_i p_i in
          if p_i <? 0 then
            if t >? t1 then Ok None
            else if t >? t0 then lb_loop rest t t1
            else lb_loop rest t0 t1
          else if p_i >? 0 then
            if t <? t0 then Ok None
            else if t <? t1 then lb_loop rest t0 t
            else lb_loop rest t0 t1
          else lb_loop rest t0 t1
    end.

  (** liang_barsky.py:11-64 *)
  Definition liang_barsky_line_box_clip (a b : point) (bx : box) : res clip :=
    let dx := px b - px a in
    let dy := py b - py a in
    if (dx =? 0) && (dy =? 0) then Ok None
    else if point_inside_box a bx && point_inside_box b bx then Ok (Some (a, b))
    else
      let* r := lb_loop [ (- dx, px a - xmin bx); (dx, xmax bx - px a);
                          (- dy, py a - ymin bx); (dy, ymax bx - py a) ] 0 1 in
      match r with
      | None => Ok None
      | Some (t0, t1) =>
          if t0 =? t1 then Ok None
          else Ok (Some (Pt (px a + t0 * dx) (py a + t0 * dy),
                         Pt (px a + t1 * dx) (py a + t1 * dy)))
      end.

  (* ---------------------------------------------------------------- *)
  (** ** cyrus_beck.py *)

  (** cyrus_beck.py:36-52 *)
  Definition compute_intersection (a s v0 v1 : point) : res (bool * T) :=
    let si := to_vector a v0 in
    let n := Pt (- (py v1 - py v0)) (px v1 - px v0) in
    let n_si := dot_product n si in
    let k := dot_product n s in
    let* t := ndiv n_si k in
    Ok (n_si >? 0, t).

  (** cyrus_beck.py:56-72 *)
  Definition intersections (a s : point) (poly : list point) (length i0 i1 : Z) : res (T * T) :=
    let* v0 := aget poly i0 in
    let* v01 := aget poly ((i0 + 1) mod length)%Z in
    let* v1 := aget poly i1 in
    let* v11 := aget poly ((i1 + 1) mod length)%Z in
    let* r0 := compute_intersection a s v0 v01 in
    let* r1 := compute_intersection a s v1 v11 in
    let t0 := snd r0 in
    let '(enters1, t1) := r1 in
    Ok (if enters1 : bool then (t1, t0) else (t0, t1)).

  (** cyrus_beck.py:76-82 *)
  Definition overlap (ta tb t0 t1 : T) : bool :=
    let ta' := if ta >? tb then tb else ta in
    let tb' := if ta >? tb then ta else tb in
    let t0' := if t0 >? t1 then t1 else t0 in
    let t1' := if t0 >? t1 then t0 else t1 in
    nmax 0 (nmin tb' t1' - nmax ta' t0') >? 0.

  (** cyrus_beck.py:86-100 *)
  Definition aligned (U V : point) : bool :=
    if ((px U =? 0) && (py U =? 0)) || ((px V =? 0) && (py V =? 0)) then true
    else if negb (px U =? 0) && negb (px V =? 0) then Bool.eqb (px U >? 0) (px V >? 0)
    else if negb (py U =? 0) && negb (py V =? 0) then Bool.eqb (py U >? 0) (py V >? 0)
    else false.

  (** cyrus_beck.py:104-139 *)
  Definition collinear_case (a b v0 v1 : point) : clip :=
    let b_ := Pt (px b - px a) (py b - py a) in
    let v0_ := Pt (px v0 - px a) (py v0 - py a) in
    let v1_ := Pt (px v1 - px a) (py v1 - py a) in
    let U := Pt (px b_) (py b_) in
    let V := to_vector v0_ v1_ in
    let al := aligned U V in
    let w0 := if al then v0 else v1 in
    let w1 := if al then v1 else v0 in
    let w0_ := if al then v0_ else v1_ in
    let w1_ := if al then v1_ else v0_ in
    let n := Pt (- py b_) (px b_) in
    let ta := 0 in
    let tb := cross_product n b_ in
    let t0 := cross_product n w0_ in
    let t1 := cross_product n w1_ in
    if negb (overlap ta tb t0 t1) then None
    else
      let p0 := if t0 <? ta then w0 else a in
      let p1 := if t1 >? tb then w1 else b in
      Some (p0, p1).

  (** cyrus_beck.py:186-206: the search for the two separated edges.
      [inl c]: the collinear case returned [c]; [inr (k, i0, i1)] otherwise.
      [n] rounds remain, i = length - n. *)
  Fixpoint cb_search (a b s : point) (poly : list point) (length : Z) (n : nat)
           (i k i0 i1 : Z) (ksi : T) : res (clip + Z * Z * Z) :=
    match n with
    | O => Ok (inr (k, i0, i1))
    | S n' =>
        if (k <? 2)%Z then
          let* v0 := aget poly i in
          let* v1 := aget poly ((i + 1) mod length)%Z in
          let eta := cross_product (to_vector a v1) s in
          if xorb (ksi <? 0) (eta <? 0) then
            if (k =? 0)%Z then cb_search a b s poly length n' (i + 1) (k + 1) i i1 eta
            else cb_search a b s poly length n' (i + 1) (k + 1) i0 i eta
          else if (ksi =? 0) && (eta =? 0) then Ok (inl (collinear_case a b v0 v1))
          else cb_search a b s poly length n' (i + 1) k i0 i1 eta
        else Ok (inr (k, i0, i1))
    end.

  (** cyrus_beck.py:214-241 *)
  Definition cb_finish (a b s : point) (a_inside b_inside : bool) (t0 t1 : T) : clip :=
    let fix_ :=
      if t0 =? t1 then
        if a_inside && negb (t1 =? 0) then Some (0, t1)
        else if b_inside && negb (t0 =? 1) then Some (t0, 1)
        else None
      else Some (t0, t1) in
    match fix_ with
    | None => None
    | Some (t0, t1) =>
        let u0 := if t1 <? t0 then t1 else t0 in
        let u1 := if t1 <? t0 then t0 else t1 in
        let valid0 := (u0 >=? 0) && (u0 <? 1) in
        let valid1 := (u1 >? 0) && (u1 <=? 1) in
        if valid0 && valid1 then Some (to_point u0 a s, to_point u1 a s)
        else if valid0 then Some (to_point u0 a s, b)
        else if valid1 then Some (a, to_point u1 a s)
        else None
    end.

  (** cyrus_beck.py:144-241 *)
  Definition cyrus_beck_line_polygon_clip (a b : point) (poly : list point) (tolerance : T)
    : res clip :=
    let length_ := zlen poly in
    let s := to_vector a b in
    if (px s =? 0) && (py s =? 0) then Ok None
    else
      let* a_inside := point_in_polygon_or_on_edge a poly tolerance in
      let* b_inside := point_in_polygon_or_on_edge b poly tolerance in
      if (a_inside : bool) && (b_inside : bool) then Ok (Some (a, b))
      else
        let* v := aget poly 0%Z in
        let ksi := cross_product (to_vector a v) s in
        let* r := cb_search a b s poly length_ (length poly) 0%Z 0%Z (-1)%Z (-1)%Z ksi in
        match r with
        | inl c => Ok c
        | inr (k, i0, i1) =>
            if (k =? 0)%Z then Ok None
            else
              let* t := intersections a s poly length_ i0 i1 in
              Ok (cb_finish a b s a_inside b_inside (fst t) (snd t))
        end.

  (* ---------------------------------------------------------------- *)
  (** ** separating_axis.py *)

  (** separating_axis.py:18-27 *)
  Definition extrema_projected (norm : point) (polygon : list point) : T * T :=
    fold_left (fun mm v =>
                 let proj := dot_product v norm in
                 (nmin (fst mm) proj, nmax (snd mm) proj)) polygon (nfmax, nfmin).

  (** separating_axis.py:31-39 *)
  Definition is_separating_axis (norm : point) (a b : list point) : bool :=
    let '(mina, maxa) := extrema_projected norm a in
    let '(minb, maxb) := extrema_projected norm b in
    negb ((maxa >? minb) && (maxb >? mina)).

  (** separating_axis.py:43-55 *)
  Fixpoint separating_axes_loop (a b : list point) (p : point) (l : list point) : bool :=
    match l with
    | [] => true
    | q :: t =>
        let norm := Pt (py p - py q) (px q - px p) in
        if (px norm =? 0) && (py norm =? 0) then separating_axes_loop a b q t
        else if is_separating_axis norm a b then false
        else separating_axes_loop a b q t
    end.
  Definition separating_axes (a b : list point) : res bool :=
    let* p := aget a (zlen a - 1)%Z in
    Ok (separating_axes_loop a b p a).

  (** separating_axis.py:70-74: one iteration of the parallel loop *)
  Definition polygons_intersect_one (g : garbage T) (vertices_a vertices_b : list point)
             (faces_a faces_b : list (list Z)) (ij : Z * Z) : res bool :=
    let* face_a := aget faces_a (fst ij) in
    let* face_b := aget faces_b (snd ij) in
    let* a := copy_vertices g vertices_a face_a in
    let* b := copy_vertices g vertices_b face_b in
    let* x := separating_axes a b in
    if x : bool then separating_axes b a else Ok false.

  (** separating_axis.py:59-75.  The two index arrays, which always have the
      same length, are one list of pairs. *)
  Definition polygons_intersect (g : garbage T) (vertices_a vertices_b : list point)
             (faces_a faces_b : list (list Z)) (indices : list (Z * Z)) : res (list bool) :=
    mapres (polygons_intersect_one g vertices_a vertices_b faces_a faces_b) indices.

  (* ---------------------------------------------------------------- *)
  (** ** sutherland_hodgman.py *)

  (** sutherland_hodgman.py:57-60 *)
  Definition inside (p r U : point) : bool :=
    px U * (py p - py r) >? py U * (px p - px r).

  (** sutherland_hodgman.py:64-74.  [None]: success = False. *)
  Definition intersection (a V r N : point) : res (option point) :=
    let W := Pt (px r - px a) (py r - py a) in
    let nw := dot_product N W in
    let nv := dot_product N V in
    if negb (nv =? 0) then
      let* t := ndiv nw nv in
      Ok (Some (Pt (px a + t * px V) (py a + t * py V)))
    else Ok None.

  (** sutherland_hodgman.py:78-81 *)
  Definition push_point (polygon : list point) (size : Z) (p : point) : res (list point * Z) :=
    let* polygon := aset polygon size p in
    Ok (polygon, (size + 1)%Z).

  (** sutherland_hodgman.py:112-138: clip one subject edge.
      State: output, n_output, a, a_inside. *)
  Definition clip_edge (r U N : point) (b : point)
             (st : list point * Z * point * bool) : res (list point * Z * point * bool) :=
    let '(output, n_output, a, a_inside) := st in
    let V := Pt (px b - px a) (py b - py a) in
    if (px V =? 0) && (py V =? 0) then Ok st
    else
      let b_inside := inside b r U in
      if b_inside then
        let* o :=
          if negb a_inside then
            let* x := intersection a V r N in
            match x with
            | Some p => push_point output n_output p
            | None => Ok (output, n_output)
            end
          else Ok (output, n_output) in
        let* o := push_point (fst o) (snd o) b in
        Ok (fst o, snd o, b, true)
      else if a_inside : bool then
        let* x := intersection a V r N in
        match x with
        | Some p => let* o := push_point output n_output p in
                    Ok (fst o, snd o, b, false)
        | None => let* o := push_point output n_output b in
                  Ok (fst o, snd o, b, true)
        end
      else Ok (output, n_output, b, false).

  (** sutherland_hodgman.py:104-138: clip by one clipping edge r -> s *)
  Definition clip_by_edge (r U : point) (subject output : list point) (n_output : Z)
    : res (list point * list point * Z) :=
    let N := Pt (- py U) (px U) in
    let length := n_output in
    let* subject := copy output subject length in
    let* a := aget subject (length - 1)%Z in
    let a_inside := inside a r U in
    let* st := for_range 0 length
      (fun j st => let* b := aget subject j in clip_edge r U N b st)
      (output, 0%Z, a, a_inside) in
    let '(output, n_output, _, _) := st in
    Ok (subject, output, n_output).

  (** sutherland_hodgman.py:96-148: loop over the clipping edges *)
  Fixpoint clip_loop (r : point) (l : list point) (subject output : list point) (n_output : Z)
    : res T :=
    match l with
    | [] => polygon_area (firstn (Z.to_nat n_output) output)
    | s :: rest =>
        let U := Pt (px s - px r) (py s - py r) in
        if (px U =? 0) && (py U =? 0) then clip_loop r rest subject output n_output
        else
          let* x := clip_by_edge r U subject output n_output in
          let '(subject, output, n_output) := x in
          if (n_output <? 3)%Z then Ok 0
          else clip_loop s rest subject output n_output
    end.

  (** utils.py:131-136 / 151-152 allocate_clip_polygon *)
  Definition allocate_clip_polygon (g : garbage T) : list point :=
    np_empty (gpt g) CLIP_MAX_N_VERTEX.

  (** sutherland_hodgman.py:85-148 *)
  Definition polygon_polygon_clip_area (g : garbage T) (polygon clipper : list point) : res T :=
    let n_output := zlen polygon in
    let n_clip := zlen clipper in
    let subject := allocate_clip_polygon g in
    let output := allocate_clip_polygon g in
    let* output := copy polygon output n_output in
    let* r := aget clipper (n_clip - 1)%Z in
    clip_loop r clipper subject output n_output.

  (** sutherland_hodgman.py:163-167: one iteration *)
  Definition area_of_intersection_one (g : garbage T) (vertices_a vertices_b : list point)
             (faces_a faces_b : list (list Z)) (ij : Z * Z) : res T :=
    let* face_a := aget faces_a (fst ij) in
    let* face_b := aget faces_b (snd ij) in
    let* a := copy_vertices g vertices_a face_a in
    let* b := copy_vertices g vertices_b face_b in
    polygon_polygon_clip_area g a b.

  (** sutherland_hodgman.py:152-168 *)
  Definition area_of_intersection (g : garbage T) (vertices_a vertices_b : list point)
             (faces_a faces_b : list (list Z)) (indices : list (Z * Z)) : res (list T) :=
    mapres (area_of_intersection_one g vertices_a vertices_b faces_a faces_b) indices.

  (** sutherland_hodgman.py:182-186: one iteration *)
  Definition box_area_one (g : garbage T) (bbox_coords : list box) (vertices : list point)
             (faces : list (list Z)) (ij : Z * Z) : res T :=
    let* bx := aget bbox_coords (fst ij) in
    let* face := aget faces (snd ij) in
    let a := copy_box_vertices bx in
    let* b := copy_vertices g vertices face in
    polygon_polygon_clip_area g a b.

  (** sutherland_hodgman.py:172-187 *)
  Definition box_area_of_intersection (g : garbage T) (bbox_coords : list box)
             (vertices : list point) (faces : list (list Z)) (indices : list (Z * Z))
    : res (list T) :=
    mapres (box_area_one g bbox_coords vertices faces) indices.

  (* ---------------------------------------------------------------- *)
  (** ** barycentric_triangle.py *)

  (** barycentric_triangle.py:29-43 *)
  Definition triangle_weights (ta tb tc p : point) : res (T * T * T) :=
    let ab := to_vector ta tb in
    let ac := to_vector ta tc in
    let ap := to_vector ta p in
    let Aa := nabs (cross_product ab ap) in
    let Ac := nabs (cross_product ac ap) in
    let A := nabs (cross_product ab ac) in
    let* inv_denom := ndiv 1 A in
    let w := inv_denom * Aa in
    let v := inv_denom * Ac in
    let u := 1 - v - w in
    Ok (u, v, w).

  (** barycentric_triangle.py:56-63: one iteration; rows start as zeros *)
  Definition barycentric_triangle_one (faces : list (list Z)) (vertices : list point)
             (pf : point * Z) : res (list T) :=
    let '(p, face_index) := pf in
    if (face_index =? -1)%Z then Ok [0; 0; 0]
    else
      let* face := aget faces face_index in
      let* t := as_triangle vertices face in
      let '(a, b, c) := t in
      let* uvw := triangle_weights a b c p in
      let '(u, v, w) := uvw in
      Ok [u; v; w].

  (** barycentric_triangle.py:47-64 *)
  Definition barycentric_triangle_weights (points : list point) (face_indices : list Z)
             (faces : list (list Z)) (vertices : list point) : res (list (list T)) :=
    mapres (fun i =>
      let* f := aget face_indices i in
      let* p := aget points i in
      barycentric_triangle_one faces vertices (p, f)) (iota (length points)).

  (* ---------------------------------------------------------------- *)
  (** ** barycentric_wachspress.py *)

  (** barycentric_wachspress.py:27-35 *)
  Definition interp_edge_case (a U p : point) (weights : list T) (i j : Z) : res (list T) :=
    let weights := map (fun _ => 0) weights in
    let V := to_vector a p in
    let* w := ndiv (nsqrt (dot_product V V)) (nsqrt (dot_product U U)) in
    let* weights := aset weights i (1 - w) in
    aset weights j w.

  (** barycentric_wachspress.py:57-79.  State: weights, w_sum, a, b, U, Ai.
      [inl ws]: the edge case returned [ws]. *)
  Fixpoint wachspress_loop (polygon : list point) (p : point) (tolerance : T) (n : Z)
           (m : nat) (i : Z) (weights : list T) (w_sum : T) (a b U : point) (Ai : T)
    : res (list T + list T * T) :=
    match m with
    | O => Ok (inr (weights, w_sum))
    | S m' =>
        let i_next := ((i + 1) mod n)%Z in
        let* c := aget polygon i_next in
        let W := to_vector a c in
        let Ci := nabs (cross_product U W) in
        let U := to_vector b c in
        let V := to_vector b p in
        let Aj := nabs (cross_product U V) in
        if within_perpendicular_distance Aj U tolerance then
          let* ws := interp_edge_case b U p weights i i_next in
          Ok (inl ws)
        else
          let* w := ndiv (2 * Ci) (Ai * Aj) in
          let* weights := aset weights i w in
          wachspress_loop polygon p tolerance n m' (i + 1) weights (w_sum + w) b c U Aj
    end.

  (** barycentric_wachspress.py:39-85 *)
  Definition wachspress_weights (polygon : list point) (p : point) (weights : list T)
             (tolerance : T) : res (list T) :=
    let n := zlen polygon in
    let* a := aget polygon (-1)%Z in
    let* b := aget polygon 0%Z in
    let U := to_vector a b in
    let V := to_vector a p in
    let Ai := nabs (cross_product U V) in
    if within_perpendicular_distance Ai U tolerance then
      interp_edge_case a U p weights (n - 1)%Z 0%Z
    else
      let* r := wachspress_loop polygon p tolerance n (length polygon) 0%Z weights 0 a b U Ai in
      match r with
      | inl ws => Ok ws
      | inr (weights, w_sum) =>
          for_range 0 n
            (fun i weights =>
               let* w := aget weights i in
               let* w := ndiv w w_sum in
               aset weights i w) weights
      end.

  (** barycentric_wachspress.py:99-106: one iteration *)
  Definition barycentric_wachspress_one (g : garbage T) (n_max_vert : nat)
             (faces : list (list Z)) (vertices : list point) (tolerance : T)
             (pf : point * Z) : res (list T) :=
    let '(p, face_index) := pf in
    let row := repeat (nofZ 0) n_max_vert in
    if (face_index =? -1)%Z then Ok row
    else
      let* face := aget faces face_index in
      let* polygon := copy_vertices g vertices face in
      wachspress_weights polygon p row tolerance.

  (** barycentric_wachspress.py:89-107 *)
  Definition barycentric_wachspress_weights (g : garbage T) (n_max_vert : nat)
             (points : list point) (face_indices : list Z)
             (faces : list (list Z)) (vertices : list point) (tolerance : T)
    : res (list (list T)) :=
    mapres (fun i =>
      let* f := aget face_indices i in
      let* p := aget points i in
      barycentric_wachspress_one g n_max_vert faces vertices tolerance (p, f))
      (iota (length points)).
End Algorithms.
