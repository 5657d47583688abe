(** The repository's own test-suite, run on the model.

    Every [Example] below is one test function of /repo/tests with its inputs
    and expected outputs, evaluated by the model in binary64.  The expected
    values are those the repository's tests assert.  Neither the library nor
    its tests were run here: agreement says that the model passes the tests the
    authors hold the library to.  Tests about dtypes, array shapes and plotting
    have no counterpart in the model and are left out, as is
    test_celltree.py:423-525, which needs matplotlib's triangulation. *)
From Verif Require Import Base Num MUtils MGeometry MCreation MAlgorithms MQuery MCelltree MDemo MDisk
  SpecTree SpecQuery SpecApi NumR NumB64 Examples.
From Flocq Require Import BinarySingleNaN.
From Coq Require Import Reals.
Open Scope Z_scope.

(** a decimal literal m * 10^-e: the nearest double, because m and 10^e are exact *)
Definition dec (m e : Z) : b64 := ndivraw (Zb m) (Zb (10 ^ e)).

(** ** Comparisons *)
Definition run (r : res bool) : bool := match r with Ok b => b | Err _ => false end.
Definition raises_value {A} (r : res A) : bool := match r with Err EValue => true | _ => false end.
(** |x - y| <= atol + rtol * |y| *)
Definition isclose (atol rtol x y : b64) : bool := nleb (nabs (nsub x y)) (nadd atol (nmul rtol (nabs y))).
Definition all2 {A B} (f : A -> B -> bool) (l : list A) (m : list B) : bool :=
  (length l =? length m)%nat && forallb (fun p => f (fst p) (snd p)) (combine l m).
(** np.allclose: atol = 1e-8, rtol = 1e-5 *)
Definition close : b64 -> b64 -> bool := isclose (dec 1 8) (dec 1 5).
Definition close_list := all2 close.
Definition close_pt (p q : point b64) : bool := close (px p) (px q) && close (py p) (py q).
Definition close_clip (c : clip (T:=b64)) (d : option (point b64 * point b64)) : bool :=
  match c, d with
  | Some (p, q), Some (r, s) => close_pt p r && close_pt q s
  | None, None => true
  | _, _ => false
  end.
Definition same_pt (p q : point b64) : bool := neqb (px p) (px q) && neqb (py p) (py q).
Definition same_box (a b : box b64) : bool :=
  neqb (xmin a) (xmin b) && neqb (xmax a) (xmax b) && neqb (ymin a) (ymin b) && neqb (ymax a) (ymax b).
Definition close_box (atol rtol : b64) (a b : box b64) : bool :=
  isclose atol rtol (xmin a) (xmin b) && isclose atol rtol (xmax a) (xmax b)
  && isclose atol rtol (ymin a) (ymin b) && isclose atol rtol (ymax a) (ymax b).
Definition zlist_eqb := all2 Z.eqb.

(** ** tests/test_utils.py *)

(** test_utils.py:8-12; lines 14-17 repeat it for rows of two *)
Example test_grow : forall g : nat -> nat -> Z, let b := grow g (iota 10) in length b = 20%nat /\ firstn 10 b = iota 10.
Proof. intros g. split; reflexivity. Qed.

(** test_utils.py:20-31 *)
Example test_pop : let s := [10; 11; 12] in pop s 3 = Ok (12, 2) /\ pop s 2 = Ok (11, 1) /\ pop s 1 = Ok (10, 0).
Proof. repeat split. Qed.

(** test_utils.py:34-41 *)
Example test_push : forall g a b c, (let* r := push g [a; b; c] 0 0 in let* r := push g (fst r) 1 (snd r) in push g (fst r) 2 (snd r)) = Ok ([0; 1; 2], 3).
Proof. reflexivity. Qed.

(** test_utils.py:44-54 *)
Example test_push_size_increases : forall g a,
  (let* r := push g [a] 0 0 in let* r := push g (fst r) 1 (snd r) in
   let* s := push g (fst r) 10 (snd r) in Ok (length (fst r), length (fst s), firstn 3 (fst s), snd s)) = Ok (2%nat, 4%nat, [0; 1; 10], 3).
Proof. reflexivity. Qed.

(** test_utils.py:57-61 *)
Example test_copy : copy (iota 5) (repeat 0 5) 3 = Ok [0; 1; 2; 0; 0].
Proof. reflexivity. Qed.

(** test_utils.py:64-84 *)
Example test_double_stack : forall g : nat -> nat -> Z * Z, let stack := allocate_stack g in length stack = 32%nat
  /\ (let* r := push g stack (1, 2) 1 in Ok (length (fst r), nth_error (fst r) 1, snd r)) = Ok (32%nat, Some (1, 2), 2)
  /\ (let* r := push g stack (1, 2) 32 in let* p := pop (fst r) (snd r) in
      Ok (length (fst r), nth_error (fst r) 32, snd r, p)) = Ok (64%nat, Some (1, 2), 33, ((1, 2), 32)).
Proof. repeat split; vm_compute; reflexivity. Qed.

(** test_utils.py:87-108 *)
Example test_triple_stack : forall g : nat -> nat -> Z * Z * Z, let stack := allocate_stack g in length stack = 32%nat
  /\ (let* r := push g stack (1, 2, 3) 1 in Ok (length (fst r), nth_error (fst r) 1, snd r)) = Ok (32%nat, Some (1, 2, 3), 2)
  /\ (let* r := push g stack (1, 2, 3) 32 in let* p := pop (fst r) (snd r) in
      Ok (length (fst r), nth_error (fst r) 32, snd r, p)) = Ok (64%nat, Some (1, 2, 3), 33, ((1, 2, 3), 32)).
Proof. repeat split; vm_compute; reflexivity. Qed.

(** test_utils.py:113-140 *)
Example test_allocate : forall (g : nat -> nat -> Z) (g' : garbage b64),
  length (allocate_stack g) = 32%nat /\ length (allocate_polygon g') = 32%nat /\ length (allocate_clip_polygon g') = 64%nat.
Proof. intros. repeat split. Qed.

(** ** tests/test_geometry_utils.py *)

(** test_geometry_utils.py:13-19 *)
Example test_to_vector : same_pt (to_vector (Pt (Zb 0) (Zb 0)) (Pt (Zb 1) (Zb 2))) (Pt (Zb 1) (Zb 2)) = true.
Proof. vm_compute. reflexivity. Qed.

(** test_geometry_utils.py:40-53 *)
Example test_as_triangle : run (let* t := as_triangle [Pt (Zb 0) (Zb 0); Pt (Zb 1) (Zb 0); Pt (Zb 1) (Zb 1)] [2; 0; 1] in let '(a, b, c) := t in
  Ok (same_pt a (Pt (Zb 1) (Zb 1)) && same_pt b (Pt (Zb 0) (Zb 0)) && same_pt c (Pt (Zb 1) (Zb 0)))) = true.
Proof. vm_compute. reflexivity. Qed.

(** test_geometry_utils.py:56-70 *)
Example test_to_point : let a := Pt (Zb 0) (Zb 0) in let b := Pt (Zb 1) (Zb 2) in let V := to_vector a b in
  close_pt (to_point ((Zb 0)) a V) a && close_pt (to_point ((Zb 1)) a V) b && close_pt (to_point ((dec 5 1)) a V) (Pt (dec 5 1) (Zb 1)) = true.
Proof. vm_compute. reflexivity. Qed.

(** test_geometry_utils.py:73-82 *)
Example test_products : close (cross_product (Pt (Zb 1) (Zb 2)) (Pt (Zb 3) (Zb 4))) ((Zb (-2))) && close (dot_product (Pt (Zb 1) (Zb 2)) (Pt (Zb 3) (Zb 4))) ((Zb 11)) = true.
Proof. vm_compute. reflexivity. Qed.

(** test_geometry_utils.py:85-92 *)
Example test_polygon_length : map polygon_length [[0; 1; 2]; [0; 1; 2; -1; -1]; [0; 1; 2; 3; -1]] = [3; 3; 4]%nat.
Proof. reflexivity. Qed.

(** test_geometry_utils.py:95-127 *)
Example test_polygon_area : let pentagon := [Pt (Zb 0) (Zb 0); Pt (Zb 1) (Zb 0); Pt (Zb 1) (Zb 1); Pt (dec 5 1) (Zb 2); Pt (Zb 0) (Zb 1)] in
  run (let* l := mapres polygon_area [[Pt (Zb 0) (Zb 0); Pt (Zb 1) (Zb 0); Pt (Zb 1) (Zb 1); Pt (Zb 0) (Zb 1)]; [Pt (Zb 0) (Zb 0); Pt (Zb 1) (Zb 0); Pt (Zb 1) (Zb 1)]; pentagon; rev pentagon] in
       Ok (close_list l [(Zb 1); (dec 5 1); (dec 15 1); (dec 15 1)])) = true.
Proof. vm_compute. reflexivity. Qed.

(** test_geometry_utils.py:130-146 *)
Example test_point_in_polygon : let poly := [Pt (Zb 0) (Zb 0); Pt (Zb 1) (Zb 0); Pt (Zb 1) (Zb 1)] in
  mapres (fun p => point_in_polygon p poly) [Pt (dec 5 1) (dec 25 2); Pt (dec 15 1) (dec 25 2); Pt (Zb 0) (Zb 0); Pt (dec 5 1) (dec 5 1); Pt (Zb 1) (Zb 1)] = Ok [true; false; true; true; false]
  /\ mapres (fun p => point_in_polygon p (rev poly)) [Pt (Zb 0) (Zb 0); Pt (dec 5 1) (dec 5 1); Pt (Zb 1) (Zb 1)] = Ok [true; true; false].
Proof. split; vm_compute; reflexivity. Qed.

(** test_geometry_utils.py:149-171 *)
Example test_boxes_intersect : let a := Box (Zb 0) (Zb 1) (Zb 0) (Zb 1) in
  map (fun b => (boxes_intersect a b, boxes_intersect b a)) [a; Box (dec 5 1) (dec 15 1) (Zb 0) (Zb 1); Box (dec 15 1) (dec 25 1) (dec 5 1) (Zb 1); Box (dec 25 2) (dec 75 2) (dec 25 2) (dec 75 2)]
  = [(true, true); (true, true); (false, false); (true, true)].
Proof. vm_compute. reflexivity. Qed.

(** test_geometry_utils.py:174-179 *)
Example test_box_contained : let a := Box (Zb 0) (Zb 1) (Zb 0) (Zb 1) in let b := Box (dec 25 2) (dec 75 2) (dec 25 2) (dec 75 2) in
  (box_contained a a, box_contained b a, box_contained a b) = (true, true, false).
Proof. vm_compute. reflexivity. Qed.

(** test_geometry_utils.py:182-193 *)
Example test_bounding_box : let vertices := [Pt (Zb 0) (Zb 1); Pt (Zb 1) (Zb 0); Pt (Zb 1) (Zb 1)] in
  run (let* l := mapres (fun f => bounding_box f vertices) [[0; 1; 2]; [0; 1; 2; -1; -1]] in
       Ok (all2 same_box l [Box (Zb 0) (Zb 1) (Zb 0) (Zb 1); Box (Zb 0) (Zb 1) (Zb 0) (Zb 1)])) = true.
Proof. vm_compute. reflexivity. Qed.

(** test_geometry_utils.py:196-218 *)
Example test_build_face_bboxes :
  run (let* l := build_face_bboxes [[0; 1; 2; -1]; [0; 1; 2; 3]] [Pt (Zb 0) (Zb 5); Pt (Zb 5) (Zb 0); Pt (Zb 5) (Zb 5); Pt (Zb 0) (Zb 5)] in
       Ok (all2 same_box l [Box (Zb 0) (Zb 5) (Zb 0) (Zb 5); Box (Zb 0) (Zb 5) (Zb 0) (Zb 5)])) = true.
Proof. vm_compute. reflexivity. Qed.

(** the network of test_geometry_utils.py:222-223 and test_edgecelltree.py:8-9 *)
Definition net_vertices : list (point b64) := [Pt (Zb 0) (Zb 0); Pt (Zb 1) (Zb 0); Pt (Zb 2) (Zb 0); Pt (Zb 2) (Zb 1)].
Definition net_edges : list (list Z) := [[0; 1]; [1; 2]; [2; 3]].
Definition net_boxes : list (box b64) := [Box (Zb 0) (Zb 1) (Zb 0) (Zb 0); Box (Zb 1) (Zb 2) (Zb 0) (Zb 0); Box (Zb 2) (Zb 2) (Zb 0) (Zb 1)].

(** test_geometry_utils.py:221-234; assert_allclose has rtol = 1e-7 *)
Example test_build_edge_bboxes :
  run (let* l := build_edge_bboxes net_edges net_vertices ((dec 1 9)) in Ok (all2 (close_box ((dec 1 9)) ((dec 1 7))) l net_boxes)) = true.
Proof. vm_compute. reflexivity. Qed.

(** test_geometry_utils.py:237-294 *)
Example test_copy_vertices : forall g : garbage b64, let vertices := [Pt (Zb 0) (Zb 1); Pt (Zb 1) (Zb 0); Pt (Zb 1) (Zb 1)] in
  copy_vertices g vertices [0; 1; 2; -1; -1] = Ok vertices
  /\ copy_vertices_into vertices [0; 1; 2; -1; -1] (np_empty (gpt g) 10) = Ok vertices.
Proof. intros g. split; reflexivity. Qed.

(** test_geometry_utils.py:297-304 *)
Example test_point_inside_box : map (fun a => point_inside_box a (Box (Zb 0) (Zb 1) (Zb 0) (Zb 1))) [Pt (dec 5 1) (dec 5 1); Pt (dec (-5) 1) (dec 5 1); Pt (dec 5 1) (dec (-5) 1)] = [true; false; false].
Proof. vm_compute. reflexivity. Qed.

(** test_geometry_utils.py:307-316 *)
Example test_flip : flip [0; 1; 2; -1; -1] 3 = Ok [2; 1; 0; -1; -1] /\ flip [0; 1; 2; 3; -1] 4 = Ok [3; 2; 1; 0; -1]
  /\ flip [0; 1; 2; 3; 4] 5 = Ok [4; 3; 2; 1; 0].
Proof. repeat split. Qed.

(** test_geometry_utils.py:319-348 *)
Example test_counter_clockwise : let vertices := [Pt (Zb 0) (Zb 0); Pt (dec 5 1) (Zb 0); Pt (Zb 1) (Zb 0); Pt (Zb 1) (dec 5 1); Pt (Zb 1) (Zb 1); Pt (Zb 0) (Zb 1)] in
  let ccw_faces := [[0; 2; 4; 5; -1; -1]; [0; 1; 2; 3; 4; 5]] in
  counter_clockwise vertices ccw_faces = Ok ccw_faces
  /\ counter_clockwise vertices [[5; 4; 2; 0; -1; -1]; [5; 4; 3; 2; 1; 0]] = Ok ccw_faces.
Proof. split; vm_compute; reflexivity. Qed.

(** test_geometry_utils.py:351-419.  The offset is 2 * 1e-9. *)
Definition offset : b64 := nmul ((Zb 2)) ((dec 1 9)).
Definition intersect_cases : list (point b64 * point b64 * option (point b64)) :=
  [(Pt (Zb 3) (Zb 2), Pt (Zb 3) (Zb 1), None);
   (Pt ((Zb 3)) (nsub ((Zb 3)) offset), Pt (Zb 3) (Zb 1), None);
   (Pt (Zb (-1)) (Zb 1), Pt (Zb 1) (Zb (-1)), Some (Pt (Zb 0) (Zb 0)));
   (Pt (Zb 1) (Zb 1), Pt (Zb 3) (Zb 3), Some (Pt (Zb 2) (Zb 2)));
   (Pt (Zb 1) (Zb 3), Pt (Zb 3) (Zb 1), Some (Pt (Zb 2) (Zb 2)));
   (Pt (Zb 0) (Zb 0), Pt (Zb (-1)) (Zb (-1)), Some (Pt (Zb 0) (Zb 0)));
   (Pt (nopp offset) (nopp offset), Pt (Zb (-1)) (Zb (-1)), None)].
Example test_lines_intersect : let a := Pt (Zb 0) (Zb 0) in let b := Pt (Zb 4) (Zb 4) in
  let agree (r : bool * option (point b64)) (e : option (point b64)) :=
    match e, r with
    | None, (false, None) => true
    | Some p, (true, Some q) => isclose ((Zb 0)) ((dec 1 7)) (px q) (px p) && isclose ((Zb 0)) ((dec 1 7)) (py q) (py p)
    | _, _ => false end in
  forallb (fun c => let '(p, q, e) := c in
    run (let* r := lines_intersect a b p q in let* s := lines_intersect p q a b in Ok (agree r e && agree s e))) intersect_cases = true.
Proof. vm_compute. reflexivity. Qed.

(** test_geometry_utils.py:422-436 *)
Example test_point_in_triangle : let a := Pt (dec 1 1) (dec 1 1) in let b := Pt (dec 7 1) (dec 5 1) in let c := Pt (dec 4 1) (dec 7 1) in let tol := (dec 1 9) in
  let p := Pt (dec 5 1) (dec 5 1) in let o := Pt (Zb 0) (Zb 0) in
  (point_in_triangle p a b c tol, point_in_triangle p c b a tol, point_in_triangle o a b c tol, point_in_triangle o c b a tol)
  = (true, true, false, false).
Proof. vm_compute. reflexivity. Qed.

(** test_geometry_utils.py:439-473 *)
Example test_points_in_triangle :
  points_in_triangles [Pt (dec (-5) 1) (dec 25 2); Pt (Zb 0) (Zb 0); Pt (dec 5 1) (dec 5 1); Pt (dec 5 1) (dec 25 2); Pt (dec 15 1) (dec 25 2); Pt (dec 25 1) (dec 25 2)] [0; 0; 0; 0; 1; 1]
    [[0; 1; 2]; [1; 3; 2]] [Pt (Zb 0) (Zb 0); Pt (Zb 1) (Zb 0); Pt (Zb 1) (Zb 1); Pt (Zb 2) (Zb 0)] ((dec 1 9)) = Ok [false; true; true; true; true; false].
Proof. vm_compute. reflexivity. Qed.

(** ** tests/test_celltree_utils.py *)
Definition util_boxes : list (box b64) := [Box (Zb 1) (Zb 2) (Zb 1) (Zb 2); Box (Zb 4) (Zb 5) (Zb 0) (Zb 1); Box (Zb 4) (Zb 5) (Zb 2) (Zb 3); Box (Zb (-1)) (Zb 0) (Zb 0) (Zb 4); Box (Zb 6) (Zb 8) (Zb 0) (Zb 4); Box (Zb 0) (Zb 6) (Zb (-1)) (Zb 0); Box (Zb 0) (Zb 6) (Zb 4) (Zb 5)].

(** test_celltree_utils.py:19-30 *)
Example test_default_tolerance : let atol := ndivraw nmintol ((Zb 100000)) in
  run (let* t := default_tolerance [(dec 24 1); (dec 5 1)] in Ok (isclose atol ((Zb 0)) t (nmul ((dec 24 1)) ntolfac)))
  && run (let* t := default_tolerance [ndivraw ((dec 24 1)) ((Zb 10000)); ndivraw ((dec 5 1)) ((Zb 10000))] in Ok (isclose atol ((Zb 0)) t nmintol)) = true.
Proof. vm_compute. reflexivity. Qed.

(** test_celltree_utils.py:33-36 *)
Example test_bbox_tree : run (let* b := bbox_tree util_boxes in Ok (close_box ((dec 1 5)) ((Zb 0)) b (Box (Zb (-1)) (Zb 8) (Zb (-1)) (Zb 5)))) = true.
Proof. vm_compute. reflexivity. Qed.

(** test_celltree_utils.py:39-52 *)
Example test_bbox_distances : all2 (fun r e => let '(x, y, z) := r in let '(x', y', z') := e in
    isclose ((dec 1 5)) ((Zb 0)) x x' && isclose ((dec 1 5)) ((Zb 0)) y y' && isclose ((dec 1 5)) ((Zb 0)) z z') (bbox_distances util_boxes)
  [((Zb 1), (Zb 1), (dec 141421356 8)); ((Zb 1), (Zb 1), (dec 141421356 8)); ((Zb 1), (Zb 1), (dec 141421356 8)); ((Zb 1), (Zb 4), (dec 412310563 8));
   ((Zb 2), (Zb 4), (dec 447213595 8)); ((Zb 6), (Zb 1), (dec 608276253 8)); ((Zb 6), (Zb 1), (dec 608276253 8))] = true.
Proof. vm_compute. reflexivity. Qed.

(** ** tests/test_edgecelltree.py *)

(** test_edgecelltree.py:12-39 *)
Example test_edge_init : run (let* t := EdgeCellTree2d_init g0 net_vertices net_edges 4 2 in
  Ok ((length (nodes (celltree_data t)) =? 3)%nat && zlist_eqb (bb_indices (celltree_data t)) [0; 1; 2]
      && all2 (close_box ((dec 1 9)) ((dec 1 7))) (bb_coords (celltree_data t)) net_boxes
      && close_box ((dec 1 9)) ((dec 1 7)) (bbox (celltree_data t)) (Box (Zb 0) (Zb 2) (Zb 0) (Zb 1)))) = true.
Proof. vm_compute. reflexivity. Qed.

(** test_edgecelltree.py:42-54 *)
Example test_edge_locate_points : (let* t := EdgeCellTree2d_init g0 net_vertices net_edges 4 2 in
  let* l := EdgeCellTree2d_locate_points g0 t [Pt (dec 5 1) (Zb 0); Pt (dec 15 1) (Zb 0); Pt (Zb 2) (dec 5 1)] None in
  let* m := EdgeCellTree2d_locate_points g0 t [Pt (dec 5 1) (dec 5 1); Pt (dec 15 1) (dec 5 1); Pt (Zb 2) (dec 5 1)] None in Ok (l, m)) = Ok ([0; 1; 2], [-1; -1; 2]).
Proof. vm_compute. reflexivity. Qed.

(** test_edgecelltree.py:57-69 *)
Example test_edge_big_coords : (let* t := EdgeCellTree2d_init g0 [Pt (dec 171805657000002 9) (dec 563516366 3); Pt (dec 171889594000001 9) (dec 563437333000001 9)] [[0; 1]] 4 2 in
  let points := [Pt (bf 5905837518758332 (-35)) (* 171882.49385095935 *) (dec 5634440183244612 10)] in
  let* l := EdgeCellTree2d_locate_points g0 t points (Some ((dec 1 8))) in
  let* m := EdgeCellTree2d_locate_points g0 t points (Some ((dec 1 9))) in Ok (l, m)) = Ok ([0], [0]).
Proof. vm_compute. reflexivity. Qed.

(** test_edgecelltree.py:72-92 *)
Example test_edge_intersect_edges : run (let* t := EdgeCellTree2d_init g0 net_vertices net_edges 4 2 in
  let* l := EdgeCellTree2d_intersect_edges g0 8 4 t
    [(Pt (Zb 1) (Zb (-1)), Pt (Zb 1) (Zb 1)); (Pt (Zb 3) (Zb 1), Pt (Zb (-1)) (Zb (-1))); (Pt (Zb 0) (Zb (-1)), Pt (Zb 0) (Zb 1)); (Pt (Zb (-2)) (Zb (-1)), Pt (Zb (-3)) (Zb (-1)))] in
  Ok (zlist_eqb (map (fun r => fst (fst r)) l) [0; 1; 1] && zlist_eqb (map (fun r => snd (fst r)) l) [0; 1; 2]
      && all2 (fun r e => match snd r with
                | Some p => isclose ((dec 1 9)) ((dec 1 7)) (px p) (px e) && isclose ((dec 1 9)) ((dec 1 7)) (py p) (py e) | None => false end)
           l [Pt (Zb 1) (Zb 0); Pt (Zb 1) (Zb 0); Pt (Zb 2) (dec 5 1)])) = true.
Proof. vm_compute. reflexivity. Qed.

(** ** tests/test_demo.py *)

(** test_demo.py:8-24 *)
Example test_close_polygons : close_polygons [[0; 1; 2; -1; -1]; [0; 1; 2; 3; -1]; [0; 1; 2; 3; 4]] (-1)
  = Ok [[0; 1; 2; 0; 0; 0]; [0; 1; 2; 3; 0; 0]; [0; 1; 2; 3; 4; 0]].
Proof. reflexivity. Qed.

(** test_demo.py:27-45 *)
Example test_edges : edges [[0; 1; 2; -1]; [1; 3; 4; 2]] (-1) = Ok [(0, 1); (0, 2); (1, 2); (1, 3); (2, 4); (3, 4)].
Proof. reflexivity. Qed.

(** test_demo.py:86-91: the error, and the number of vertices *)
Example test_generate_disk : disk_vertices 2 2 = Err EValue /\ exists l, disk_vertices 4 1 = Ok l /\ length l = 5%nat.
Proof. split; [reflexivity|]. unfold disk_vertices. cbn. eexists. split; [reflexivity|]. reflexivity. Qed.
