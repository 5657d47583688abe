(** Model of the parallel loops (nb.prange) under arbitrary interleavings.

    An iteration is a program that reads and writes cells of the arrays shared
    by the iterations, and computes on its own in between.  Arrays that no
    iteration of the loop writes (points, vertices, faces of the tree, nodes,
    bb_coords, ...) are constants of the program; arrays allocated inside an
    iteration (np.empty stacks and polygon buffers) are local to it and hold
    garbage of their own: iteration [i] runs with the garbage [G i].

    A cell is addressed by (row, column).  A one-dimensional array has the one
    column 0; where a loop fills several arrays of its length (query.py:287,
    485) they are the columns. *)
From Verif Require Import Base Num MUtils MGeometry MCreation MAlgorithms MQuery.

Definition addr : Type := nat * nat.

Section Prog.
  Context {C : Type}.

  Inductive prog (X : Type) : Type :=
  | Ret (x : X)
  | Crash (e : err)
  | Rd (a : addr) (k : C -> prog X)
  | Wr (a : addr) (c : C) (k : prog X).
  Arguments Ret {X}.
  Arguments Crash {X}.
  Arguments Rd {X}.
  Arguments Wr {X}.

  Fixpoint bindp {X Y} (p : prog X) (f : X -> prog Y) : prog Y :=
    match p with
    | Ret x => f x
    | Crash e => Crash e
    | Rd a k => Rd a (fun c => bindp (k c) f)
    | Wr a c k => Wr a c (bindp k f)
    end.

  (** a local computation *)
  Definition local {X} (r : res X) : prog X :=
    match r with Ok x => Ret x | Err e => Crash e end.

  (** [for i in range(lo, hi)] *)
  Fixpoint for_p {St} (n : nat) (i : Z) (body : Z -> St -> prog St) (s : St) : prog St :=
    match n with
    | O => Ret s
    | S n' => bindp (body i s) (fun s' => for_p n' (i + 1) body s')
    end.

  (** The memory; accesses elsewhere are out of bounds *)
  Definition mem : Type := addr -> option C.
  Definition addr_eqb (a b : addr) : bool := (fst a =? fst b)%nat && (snd a =? snd b)%nat.
  Definition upd (m : mem) (a : addr) (c : C) : mem := fun b => if addr_eqb b a then Some c else m b.

  (** One atomic step of a program *)
  Definition step1 {X} (p : prog X) (m : mem) : option (prog X * mem) :=
    match p with
    | Ret _ | Crash _ => None
    | Rd a k => Some (match m a with Some c => k c | None => Crash EIndex end, m)
    | Wr a c k => Some (match m a with Some _ => (k, upd m a c) | None => (Crash EIndex, m) end)
    end.

  (** The loop: one program per iteration.  In every step the scheduler picks
      any iteration that can go on. *)
  Definition state : Type := list (prog unit) * mem.
  Inductive pstep : state -> state -> Prop :=
  | PStep ps m i p p' m' :
      nth_error ps i = Some p -> step1 p m = Some (p', m') ->
      pstep (ps, m) (list_set ps i p', m').
  Inductive reach : state -> state -> Prop :=
  | RRefl s : reach s s
  | RStep s s' s'' : pstep s s' -> reach s' s'' -> reach s s''.

  (** no iteration can go on *)
  Definition finished (s : state) : Prop := forall s', ~ pstep s s'.

  (** A view of one row: faces[i], weights[i], bbox_coords[i] *)
  Record view := View { v_row : nat; v_len : nat }.
  Definition vget (v : view) (i : Z) : prog C :=
    match norm_idx (v_len v) i with
    | Some k => Rd (v_row v, k) Ret
    | None => Crash EIndex
    end.
  Definition vset (v : view) (i : Z) (c : C) : prog unit :=
    match norm_idx (v_len v) i with
    | Some k => Wr (v_row v, k) c (Ret tt)
    | None => Crash EIndex
    end.

  (** the array as memory *)
  Definition mem_of (rows : list (list C)) : mem :=
    fun a => match nth_error rows (fst a) with Some row => nth_error row (snd a) | None => None end.
End Prog.
Arguments prog : clear implicits.
Arguments Ret {C X}.
Arguments Crash {C X}.
Arguments Rd {C X}.
Arguments Wr {C X}.
Arguments mem : clear implicits.
Arguments state : clear implicits.

Notation "'do' x ':=' m 'in' k" := (bindp m (fun x => k))
  (at level 200, x binder, m at level 100, k at level 200, format "'[v' 'do'  x  ':='  m  'in' '/' k ']'").

Section Loops.
  Context {T : Type} {NT : Num T}.
  Local Open Scope num_scope.
  Notation point := (point T).
  Notation celltree := (celltree T).
  Variable G : nat -> garbage T.

  (** The loops that fill a one-dimensional array: out[i] = f(i) *)
  Definition fill_one {C} (f : nat -> res C) (i : nat) : prog C unit :=
    do c := local (f i) in vset (View i 1) 0 c.

  (** query.py:114-116 *)
  Definition locate_points_body (points : list point) (tree : celltree) (tolerance : T) : nat -> prog Z unit :=
    fill_one (fun i => let* p := aget points (Z.of_nat i) in locate_point (G i) p tree tolerance).
  (** query.py:171-173 *)
  Definition locate_points_on_edge_body (points : list point) (tree : celltree) (tolerance : T) : nat -> prog Z unit :=
    fill_one (fun i => let* p := aget points (Z.of_nat i) in locate_point_on_edge (G i) p tree tolerance).
  (** geometry_utils.py:283-289 *)
  Definition points_in_triangles_body (points : list point) (face_indices : list Z)
             (faces : list (list Z)) (vertices : list point) (tolerance : T) : nat -> prog bool unit :=
    fill_one (fun i =>
      let* f := aget face_indices (Z.of_nat i) in
      let* face := aget faces f in
      let* t := as_triangle vertices face in
      let* p := aget points (Z.of_nat i) in
      let '(a, b, c) := t in Ok (point_in_triangle p a b c tolerance)).
  (** separating_axis.py:69-74 *)
  Definition polygons_intersect_body (va vb : list point) (fa fb : list (list Z)) (ij : list (Z * Z)) : nat -> prog bool unit :=
    fill_one (fun i => let* x := aget ij (Z.of_nat i) in polygons_intersect_one (G i) va vb fa fb x).
  (** sutherland_hodgman.py:162-167 *)
  Definition area_of_intersection_body (va vb : list point) (fa fb : list (list Z)) (ij : list (Z * Z)) : nat -> prog T unit :=
    fill_one (fun i => let* x := aget ij (Z.of_nat i) in area_of_intersection_one (G i) va vb fa fb x).
  (** sutherland_hodgman.py:181-186 *)
  Definition box_area_of_intersection_body (boxes : list (box T)) (vs : list point) (faces : list (list Z)) (ij : list (Z * Z))
    : nat -> prog T unit :=
    fill_one (fun i => let* x := aget ij (Z.of_nat i) in box_area_one (G i) boxes vs faces x).

  (** bbox_coords[i] = (xmin, xmax, ymin, ymax): four cells *)
  Definition write_box (i : nat) (b : box T) : prog T unit :=
    let row := View i 4 in
    do _ := vset row 0 (xmin b) in
    do _ := vset row 1 (xmax b) in
    do _ := vset row 2 (ymin b) in
    vset row 3 (ymax b).
  (** geometry_utils.py:452-454 *)
  Definition build_face_bboxes_body (faces : list (list Z)) (vertices : list point) (i : nat) : prog T unit :=
    do b := local (let* polygon := aget faces (Z.of_nat i) in bounding_box polygon vertices) in write_box i b.
  (** geometry_utils.py:483-485 *)
  Definition build_edge_bboxes_body (edges : list (list Z)) (vertices : list point) (tolerance : T) (i : nat) : prog T unit :=
    do b := local (let* edge := aget edges (Z.of_nat i) in edge_bounding_box edge vertices tolerance) in write_box i b.

  (** barycentric_triangle.py:56-63, 40-42: three cells of the row [weights[i]] *)
  Definition triangle_weights_body (points : list point) (face_indices : list Z)
             (faces : list (list Z)) (vertices : list point) (i : nat) : prog T unit :=
    let weights := View i 3 in
    do face_index := local (aget face_indices (Z.of_nat i)) in
    if (face_index =? -1)%Z then Ret tt
    else
      do t := local (let* face := aget faces face_index in as_triangle vertices face) in
      do p := local (aget points (Z.of_nat i)) in
      let '(a, b, c) := t in
      do uvw := local (triangle_weights a b c p) in
      let '(u, v, w) := uvw in
      do _ := vset weights 0 u in
      do _ := vset weights 1 v in
      vset weights 2 w.

  (** barycentric_wachspress.py:27-35 on a row of the shared array *)
  Definition interp_edge_case_p (a U p : point) (weights : view) (i j : Z) : prog T unit :=
    do _ := for_p (v_len weights) 0 (fun k _ => vset weights k 0) tt in
    let V := to_vector a p in
    do w := local (ndiv (nsqrt (dot_product V V)) (nsqrt (dot_product U U))) in
    do _ := vset weights i (1 - w) in
    vset weights j w.

  (** barycentric_wachspress.py:57-79; [None]: the edge case returned *)
  Fixpoint wachspress_loop_p (polygon : list point) (p : point) (tolerance : T) (n : Z)
           (m : nat) (i : Z) (weights : view) (w_sum : T) (a b U : point) (Ai : T) : prog T (option T) :=
    match m with
    | O => Ret (Some w_sum)
    | S m' =>
        let i_next := ((i + 1) mod n)%Z in
        do c := local (aget polygon i_next) in
        let W := to_vector a c in
        let Ci := nabs (cross_product U W) in
        let U := to_vector b c in
        let V := to_vector b p in
        let Aj := nabs (cross_product U V) in
        if within_perpendicular_distance Aj U tolerance then
          do _ := interp_edge_case_p b U p weights i i_next in Ret None
        else
          do w := local (ndiv (2 * Ci) (Ai * Aj)) in
          do _ := vset weights i w in
          wachspress_loop_p polygon p tolerance n m' (i + 1) weights (w_sum + w) b c U Aj
    end.

  (** barycentric_wachspress.py:39-85 *)
  Definition wachspress_weights_p (polygon : list point) (p : point) (weights : view) (tolerance : T) : prog T unit :=
    let n := zlen polygon in
    do a := local (aget polygon (-1)%Z) in
    do b := local (aget polygon 0%Z) in
    let U := to_vector a b in
    let V := to_vector a p in
    let Ai := nabs (cross_product U V) in
    if within_perpendicular_distance Ai U tolerance then
      interp_edge_case_p a U p weights (n - 1)%Z 0%Z
    else
      do r := wachspress_loop_p polygon p tolerance n (length polygon) 0%Z weights 0 a b U Ai in
      match r with
      | None => Ret tt
      | Some w_sum =>
          for_p (Z.to_nat (n - 0)) 0
            (fun i _ =>
               do w := vget weights i in
               do w := local (ndiv w w_sum) in
               vset weights i w) tt
      end.

  (** barycentric_wachspress.py:99-106 *)
  Definition wachspress_body (n_max_vert : nat) (points : list point) (face_indices : list Z)
             (faces : list (list Z)) (vertices : list point) (tolerance : T) (i : nat) : prog T unit :=
    do face_index := local (aget face_indices (Z.of_nat i)) in
    if (face_index =? -1)%Z then Ret tt
    else
      do polygon := local (let* face := aget faces face_index in copy_vertices (G i) vertices face) in
      do p := local (aget points (Z.of_nat i)) in
      wachspress_weights_p polygon p (View i n_max_vert) tolerance.

  (** geometry_utils.py:73-79 on a row of the shared array *)
  Fixpoint polygon_length_aux_p (face : view) (k : nat) (fuel : nat) : prog Z nat :=
    match fuel with
    | O => Ret k
    | S fuel' =>
        do x := vget face (Z.of_nat k) in
        if (x =? FILL_VALUE)%Z then Ret k else polygon_length_aux_p face (S k) fuel'
    end.
  Definition polygon_length_p (face : view) : prog Z nat :=
    let n := v_len face in
    if (n <=? 3)%nat then Ret n else polygon_length_aux_p face 3 (n - 3).

  (** geometry_utils.py:533-538 *)
  Definition flip_p (face : view) (length : Z) : prog Z unit :=
    let end_ := (length - 1)%Z in
    for_p (Z.to_nat (length / 2 - 0)) 0
      (fun i _ =>
         let j := (end_ - i)%Z in
         do fj := vget face j in
         do fi := vget face i in
         do _ := vset face i fj in
         vset face j fi) tt.

  (** geometry_utils.py:549-560 *)
  Fixpoint ccw_loop_p (vertices : list point) (length : nat) (fuel : nat) (i : Z)
           (face : view) (a b : point) : prog Z unit :=
    match fuel with
    | O => Ret tt
    | S fuel' =>
        do fi := vget face i in
        do c := local (aget vertices fi) in
        let u := to_vector a b in
        let v := to_vector a c in
        let product := cross_product u v in
        if product =? 0 then ccw_loop_p vertices length fuel' (i + 1) face b c
        else if product <? 0 then
          do _ := flip_p face (Z.of_nat length) in
          ccw_loop_p vertices length fuel' (i + 1) face a b
        else Ret tt
    end.

  (** geometry_utils.py:544-560: the faces are read and written in place *)
  Definition counter_clockwise_body (vertices : list point) (n_max_vert : nat) (i : nat) : prog Z unit :=
    let face := View i n_max_vert in
    do length := polygon_length_p face in
    do fa := vget face (Z.of_nat length - 2)%Z in
    do a := local (aget vertices fa) in
    do fb := vget face (Z.of_nat length - 1)%Z in
    do b := local (aget vertices fb) in
    ccw_loop_p vertices length length 0%Z face a b.

  (** query.py:287-288: indices[i], counts[i] = locate_boxes_helper(...) *)
  Definition locate_boxes_body (chunks : list (list (box T))) (offsets : list Z) (tree : celltree) (i : nat)
    : prog (list (Z * Z) + Z) unit :=
    do r := local (let* c := aget chunks (Z.of_nat i) in let* o := aget offsets (Z.of_nat i) in
                   locate_boxes_helper (G i) c tree o) in
    do _ := vset (View i 2) 0 (inl (fst r)) in
    vset (View i 2) 1 (inr (snd r)).
  (** query.py:485-490; the rows of indices and intersections are one list as
      in [locate_edges_helper] *)
  Definition locate_edges_body (csfuel : nat)
             (f : garbage T -> Z -> point -> point -> res (option (option point * option point)))
             (chunks : list (list (point * point))) (offsets : list Z) (tree : celltree) (i : nat)
    : prog (list erow + Z) unit :=
    do r := local (let* c := aget chunks (Z.of_nat i) in let* o := aget offsets (Z.of_nat i) in
                   locate_edges_helper (G i) csfuel (f (G i)) c tree o) in
    do _ := vset (View i 2) 0 (inl (fst r)) in
    vset (View i 2) 1 (inr (snd r)).
End Loops.
