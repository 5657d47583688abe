(** The repository's tests of its algorithms (/repo/tests/test_algorithms), run
    on the model in binary64; see TestSuite. *)
From Verif Require Import Base Num MUtils MGeometry MCreation MAlgorithms MQuery MCelltree NumB64 Examples TestSuite.
From Flocq Require Import BinarySingleNaN.
Open Scope Z_scope.

(** ** test_barycentric.py *)

(** test_barycentric.py:11-22 *)
Example test_interp_edge_case : let compute p := interp_edge_case (Pt (Zb 0) (Zb 0)) (Pt (Zb 1) (Zb 0)) p (repeat ((Zb 0)) 4) 0 1 in
  run (let* l := mapres compute [Pt (Zb 0) (Zb 0); Pt (Zb 1) (Zb 0); Pt (dec 25 2) (Zb 0); Pt (dec 75 2) (Zb 0)] in
    Ok (all2 close_list l [[(Zb 1); (Zb 0); (Zb 0); (Zb 0)]; [(Zb 0); (Zb 1); (Zb 0); (Zb 0)]; [(dec 75 2); (dec 25 2); (Zb 0); (Zb 0)]; [(dec 25 2); (dec 75 2); (Zb 0); (Zb 0)]])) = true.
Proof. vm_compute. reflexivity. Qed.

Definition unit_triangle : list (point b64) := [Pt (Zb 0) (Zb 0); Pt (Zb 1) (Zb 0); Pt (Zb 1) (Zb 1)].
Definition triangle_points : list (point b64) := [Pt (Zb 0) (Zb 0); Pt (Zb 1) (Zb 0); Pt (Zb 1) (Zb 1); Pt (dec 5 1) (Zb 0); Pt (Zb 1) (dec 5 1); Pt (dec 5 1) (dec 5 1); Pt (Zb 2) (Zb 2)].
Definition triangle_expected : list (list b64) :=
  [[(Zb 1); (Zb 0); (Zb 0)]; [(Zb 0); (Zb 1); (Zb 0)]; [(Zb 0); (Zb 0); (Zb 1)]; [(dec 5 1); (dec 5 1); (Zb 0)]; [(Zb 0); (dec 5 1); (dec 5 1)]; [(dec 5 1); (Zb 0); (dec 5 1)]; [(Zb 0); (Zb 0); (Zb 0)]].

(** test_barycentric.py:25-45 *)
Example test_compute_weights_triangle :
  run (let* l := mapres (fun p => triangle_weights (Pt (Zb 0) (Zb 0)) (Pt (Zb 1) (Zb 0)) (Pt (Zb 1) (Zb 1)) p) (firstn 6 triangle_points) in
    Ok (all2 (fun r e => let '(a, b, c) := r in close_list [a; b; c] e) l (firstn 6 triangle_expected))) = true.
Proof. vm_compute. reflexivity. Qed.

(** test_barycentric.py:48-92, both functions *)
Example test_barycentric_triangle_weights : let indices := [0; 0; 0; 0; 0; 0; -1] in
  run (let* l := barycentric_triangle_weights triangle_points indices [[0; 1; 2]] unit_triangle in
       let* m := barycentric_wachspress_weights g0 3 triangle_points indices [[0; 1; 2]] unit_triangle ((dec 1 9)) in
       Ok (all2 close_list l triangle_expected && all2 close_list m triangle_expected)) = true.
Proof. vm_compute. reflexivity. Qed.

Definition unit_square : list (point b64) := [Pt (Zb 0) (Zb 0); Pt (Zb 1) (Zb 0); Pt (Zb 1) (Zb 1); Pt (Zb 0) (Zb 1)].
Definition square_points : list (point b64) := [Pt (Zb 0) (Zb 0); Pt (Zb 1) (Zb 0); Pt (Zb 1) (Zb 1); Pt (Zb 0) (Zb 1); Pt (dec 25 2) (Zb 0); Pt (dec 25 2) (Zb 1); Pt (dec 5 1) (dec 5 1); Pt (Zb 2) (Zb 2)].
Definition square_expected : list (list b64) :=
  [[(Zb 1); (Zb 0); (Zb 0); (Zb 0)]; [(Zb 0); (Zb 1); (Zb 0); (Zb 0)]; [(Zb 0); (Zb 0); (Zb 1); (Zb 0)]; [(Zb 0); (Zb 0); (Zb 0); (Zb 1)];
   [(dec 75 2); (dec 25 2); (Zb 0); (Zb 0)]; [(Zb 0); (Zb 0); (dec 25 2); (dec 75 2)]; [(dec 25 2); (dec 25 2); (dec 25 2); (dec 25 2)]; [(Zb 0); (Zb 0); (Zb 0); (Zb 0)]].

(** test_barycentric.py:95-115 *)
Example test_compute_weights_wachspress :
  run (let* l := mapres (fun p => wachspress_weights unit_square p (repeat ((Zb 0)) 4) ((dec 1 9))) (firstn 7 square_points) in
       Ok (all2 close_list l (firstn 7 square_expected))) = true.
Proof. vm_compute. reflexivity. Qed.

(** test_barycentric.py:118-160 *)
Example test_barycentric_wachspress_weights :
  run (let* l := barycentric_wachspress_weights g0 4 square_points [0; 0; 0; 0; 0; 0; 0; -1] [[0; 1; 2; 3]] unit_square ((dec 1 9)) in
       Ok (all2 close_list l square_expected)) = true.
Proof. vm_compute. reflexivity. Qed.

(** ** test_line_box_clip.py *)
Definition BOX : box b64 := Box (Zb 0) (Zb 2) (Zb 0) (Zb 2).
Definition POLY : list (point b64) := [Pt (Zb 0) (Zb 0); Pt (Zb 2) (Zb 0); Pt (Zb 2) (Zb 2); Pt (Zb 0) (Zb 2)].
Definition cs (a b : point b64) := cohen_sutherland_line_box_clip 8 a b BOX.
Definition lb (a b : point b64) := liang_barsky_line_box_clip a b BOX.
Definition cb poly (a b : point b64) := cyrus_beck_line_polygon_clip a b poly ((dec 1 9)).
Definition expects (f : point b64 -> point b64 -> res (clip (T:=b64))) (cases : list (point b64 * point b64 * option (point b64 * point b64))) : bool :=
  forallb (fun c => let '(a, b, e) := c in run (let* r := f a b in Ok (close_clip r e))) cases.

(** test_line_box_clip.py:39-119 *)
Definition clip_cases : list (point b64 * point b64 * option (point b64 * point b64)) :=
  [(Pt (Zb (-1)) (Zb 0), Pt (Zb 2) (Zb 3), Some (Pt (Zb 0) (Zb 1), Pt (Zb 1) (Zb 2)));
   (Pt (Zb 0) (dec (-1) 1), Pt (Zb 0) (dec (-1) 1), None);
   (Pt (Zb (-1)) (Zb 1), Pt (Zb 3) (Zb 1), Some (Pt (Zb 0) (Zb 1), Pt (Zb 2) (Zb 1)));
   (Pt (Zb 1) (Zb (-3)), Pt (Zb 1) (Zb 3), Some (Pt (Zb 1) (Zb 0), Pt (Zb 1) (Zb 2)));
   (Pt (Zb 1) (Zb (-3)), Pt (Zb 1) (Zb 1), Some (Pt (Zb 1) (Zb 0), Pt (Zb 1) (Zb 1)));
   (Pt (Zb 1) (Zb 1), Pt (Zb 1) (Zb 3), Some (Pt (Zb 1) (Zb 1), Pt (Zb 1) (Zb 2)));
   (Pt (Zb (-1)) (Zb 3), Pt (Zb 3) (Zb 3), None);
   (Pt (Zb (-1)) (Zb 1), Pt (Zb 1) (Zb 1), Some (Pt (Zb 0) (Zb 1), Pt (Zb 1) (Zb 1)));
   (Pt (dec 5 1) (dec 5 1), Pt (dec 15 1) (dec 15 1), Some (Pt (dec 5 1) (dec 5 1), Pt (dec 15 1) (dec 15 1)));
   (Pt (dec (-15) 1) (Zb 0), Pt (dec (-5) 1) (Zb 1), None);
   (Pt (dec 25 1) (Zb 0), Pt (dec 35 1) (Zb 1), None)].
Example test_line_box_clip : expects cs clip_cases && expects lb clip_cases && expects (cb POLY) clip_cases = true.
Proof. vm_compute. reflexivity. Qed.

(** test_line_box_clip.py:122-304 *)
Definition degenerate_cases : list (point b64 * point b64 * option (point b64 * point b64)) :=
  [(Pt (Zb (-1)) (Zb (-1)), Pt (Zb 3) (Zb 3), Some (Pt (Zb 0) (Zb 0), Pt (Zb 2) (Zb 2)));
   (Pt (Zb (-1)) (Zb (-1)), Pt (Zb (-1)) (Zb (-1)), None);
   (Pt (Zb (-1)) (Zb 0), Pt (Zb 3) (Zb 0), Some (Pt (Zb 0) (Zb 0), Pt (Zb 2) (Zb 0)));
   (Pt (Zb (-1)) (Zb 2), Pt (Zb 3) (Zb 2), Some (Pt (Zb 0) (Zb 2), Pt (Zb 2) (Zb 2)));
   (Pt (Zb (-1)) (Zb 0), Pt (Zb 1) (Zb 0), Some (Pt (Zb 0) (Zb 0), Pt (Zb 1) (Zb 0)));
   (Pt (Zb (-1)) (Zb 2), Pt (Zb 1) (Zb 2), Some (Pt (Zb 0) (Zb 2), Pt (Zb 1) (Zb 2)));
   (Pt (dec 5 1) (Zb 0), Pt (dec 15 1) (Zb 0), Some (Pt (dec 5 1) (Zb 0), Pt (dec 15 1) (Zb 0)));
   (Pt (dec 5 1) (Zb 2), Pt (dec 15 1) (Zb 2), Some (Pt (dec 5 1) (Zb 2), Pt (dec 15 1) (Zb 2)));
   (Pt (Zb 0) (Zb 0), Pt (Zb 2) (Zb 0), Some (Pt (Zb 0) (Zb 0), Pt (Zb 2) (Zb 0)));
   (Pt (Zb 0) (Zb 2), Pt (Zb 2) (Zb 2), Some (Pt (Zb 0) (Zb 2), Pt (Zb 2) (Zb 2)));
   (Pt (Zb 0) (Zb 0), Pt (Zb 0) (Zb 2), Some (Pt (Zb 0) (Zb 0), Pt (Zb 0) (Zb 2)));
   (Pt (Zb 2) (Zb 0), Pt (Zb 2) (Zb 2), Some (Pt (Zb 2) (Zb 0), Pt (Zb 2) (Zb 2)));
   (Pt (Zb 0) (dec 5 1), Pt (Zb 0) (dec 15 1), Some (Pt (Zb 0) (dec 5 1), Pt (Zb 0) (dec 15 1)));
   (Pt (Zb 2) (dec 5 1), Pt (Zb 2) (dec 15 1), Some (Pt (Zb 2) (dec 5 1), Pt (Zb 2) (dec 15 1)));
   (Pt (Zb (-1)) (Zb 1), Pt (Zb 0) (Zb 2), None)].
Example test_line_box_clip_degeneracy :
  expects cs degenerate_cases && expects lb degenerate_cases && expects (cb POLY) degenerate_cases && expects (cb (rev POLY)) degenerate_cases = true.
Proof. vm_compute. reflexivity. Qed.

(** ** test_line_polygon_clip.py *)

(** the clip of (b, a) is exactly the clip of (a, b), turned round *)
Definition turned (poly : list (point b64)) (a b : point b64) : bool :=
  run (let* r := cb poly a b in let* s := cb poly b a in
       Ok (match r, s with Some (p, q), Some (p', q') => same_pt p q' && same_pt q p' | None, None => true | _, _ => false end)).
Definition hits (poly : list (point b64)) (ab : point b64 * point b64) : bool :=
  run (let* r := cb poly (fst ab) (snd ab) in Ok (match r with Some _ => true | None => false end)).

(** test_line_polygon_clip.py:21-84 *)
Example test_line_polygon_clip : let poly := [Pt (Zb 1) (Zb 3); Pt (Zb 4) (Zb 3); Pt (Zb 4) (Zb 5); Pt (Zb 1) (Zb 5)] in
  expects (cb poly) [(Pt (Zb 0) (Zb 0), Pt (Zb 4) (Zb 6), Some (Pt (Zb 2) (Zb 3), Pt (dec 33333333333333 13) (Zb 5))); (Pt (Zb 0) (dec 1 1), Pt (Zb 0) (dec 1 1), None); (Pt (Zb 0) (Zb 4), Pt (Zb 5) (Zb 4), Some (Pt (Zb 1) (Zb 4), Pt (Zb 4) (Zb 4)))]
  && turned poly (Pt (Zb 0) (Zb 0)) (Pt (Zb 4) (Zb 6)) && turned poly (Pt (Zb 0) (Zb 4)) (Pt (Zb 5) (Zb 4))
  && expects (cb POLY) [(Pt (Zb 1) (Zb (-3)), Pt (Zb 1) (Zb 3), Some (Pt (Zb 1) (Zb 0), Pt (Zb 1) (Zb 2))); (Pt (Zb 1) (Zb (-3)), Pt (Zb 1) (Zb 1), Some (Pt (Zb 1) (Zb 0), Pt (Zb 1) (Zb 1))); (Pt (Zb 1) (Zb 1), Pt (Zb 1) (Zb 3), Some (Pt (Zb 1) (Zb 1), Pt (Zb 1) (Zb 2)))]
  && turned POLY (Pt (Zb 1) (Zb (-3))) (Pt (Zb 1) (Zb 3)) && turned POLY (Pt (Zb 1) (Zb (-3))) (Pt (Zb 1) (Zb 1)) && turned POLY (Pt (Zb 1) (Zb 1)) (Pt (Zb 1) (Zb 3)) = true.
Proof. vm_compute. reflexivity. Qed.

(** test_line_polygon_clip.py:87-104 *)
Example test_line_box_clip_through_vertex :
  expects (cb [Pt (Zb 2) (Zb 4); Pt (Zb 1) (Zb 4); Pt (Zb 1) (Zb 3); Pt (Zb 2) (Zb 3)]) [(Pt (Zb 2) (Zb 2), Pt (Zb 1) (Zb 4), Some (Pt (dec 15 1) (Zb 3), Pt (Zb 1) (Zb 4)))]
  && negb (hits [Pt (Zb 2) (Zb 3); Pt (Zb 1) (Zb 3); Pt (Zb 1) (Zb 2); Pt (Zb 2) (Zb 2)] (Pt (Zb 2) (Zb 0), Pt (Zb 2) (Zb 2))) && negb (hits [Pt (Zb 3) (Zb 3); Pt (Zb 2) (Zb 3); Pt (Zb 2) (Zb 2); Pt (Zb 3) (Zb 2)] (Pt (Zb 2) (Zb 0), Pt (Zb 2) (Zb 2))) = true.
Proof. vm_compute. reflexivity. Qed.

(** test_line_polygon_clip.py:107-122 *)
Example test_line_triangle_clip : let poly := [Pt (Zb 0) (dec 5 1); Pt (Zb 2) (Zb 0); Pt (Zb 2) (Zb 2)] in
  expects (cb poly) [(Pt (Zb 1) (Zb 1), Pt (Zb 3) (Zb 1), Some (Pt (Zb 1) (Zb 1), Pt (Zb 2) (Zb 1)))] && turned poly (Pt (Zb 1) (Zb 1)) (Pt (Zb 3) (Zb 1)) = true.
Proof. vm_compute. reflexivity. Qed.

(** test_line_polygon_clip.py:125-164 *)
Example test_line_triangle_clip_degeneracies : let poly := [Pt (Zb 0) (Zb 0); Pt (Zb 2) (Zb 0); Pt (Zb 2) (Zb 2)] in
  forallb (fun ab => hits poly ab && hits poly (snd ab, fst ab))
    [(Pt (Zb 0) (Zb 0), Pt (Zb 2) (Zb 0)); (Pt (Zb 2) (Zb 0), Pt (Zb 2) (Zb 2)); (Pt (Zb 0) (Zb 0), Pt (Zb 2) (Zb 2)); (Pt (Zb (-1)) (Zb (-1)), Pt (Zb 2) (Zb 2)); (Pt (Zb (-1)) (Zb (-1)), Pt (Zb 3) (Zb 3)); (Pt (Zb 0) (Zb 0), Pt (Zb 3) (Zb 3))] = true.
Proof. vm_compute. reflexivity. Qed.

(** test_line_polygon_clip.py:167-215 *)
Example test_line_box_degeneracies : let a := Pt (Zb 1) (Zb 1) in let b := Pt (dec 15 1) (dec 125 2) in
  run (let* r := cb [Pt (Zb 1) (Zb 1); Pt (Zb 2) (Zb 1); Pt (Zb 2) (Zb 2); Pt (Zb 1) (Zb 2)] a b in Ok (match r with Some (c, d) => same_pt c a && same_pt d b | None => false end))
  && negb (hits [Pt (Zb 0) (Zb 1); Pt (Zb 1) (Zb 1); Pt (Zb 0) (Zb 2); Pt (Zb 1) (Zb 2)] (a, b)) && negb (hits [Pt (Zb 0) (Zb 0); Pt (Zb 1) (Zb 0); Pt (Zb 1) (Zb 1); Pt (Zb 0) (Zb 1)] (a, b))
  && negb (hits [Pt (Zb 1) (Zb 0); Pt (Zb 2) (Zb 0); Pt (Zb 2) (Zb 1); Pt (Zb 1) (Zb 1)] (a, b))
  && run (let* r := cb [Pt (Zb 0) (Zb 0); Pt (Zb 1) (Zb 0); Pt (Zb 1) (Zb 1); Pt (Zb 0) (Zb 1)] (Pt (dec 5 1) (dec 75 2)) (Pt (Zb 1) (Zb 1)) in
          Ok (match r with Some (c, d) => same_pt c (Pt (dec 5 1) (dec 75 2)) && same_pt d (Pt (Zb 1) (Zb 1)) | None => false end)) = true.
Proof. vm_compute. reflexivity. Qed.

(** ** test_separating_axis.py *)
Definition sat (a b : list (point b64)) : res (bool * bool) := let* x := separating_axes a b in let* y := separating_axes b a in Ok (x, y).

(** test_separating_axis.py:9-100 *)
Example test_triangles_intersect : let a := [Pt (Zb 0) (Zb 0); Pt (Zb 0) (Zb 1); Pt (Zb 1) (Zb 1)] in
  mapres (fun ab => sat (fst ab) (snd ab))
    [(a, a); (a, [Pt (Zb 2) (Zb 0); Pt (Zb 3) (Zb 1); Pt (Zb 2) (Zb 1)]); (a, [Pt (Zb 1) (Zb 0); Pt (Zb 2) (Zb 1); Pt (Zb 1) (Zb 1)]); ([Pt (Zb 0) (Zb 0); Pt (Zb 4) (Zb 0); Pt (Zb 0) (Zb 4)], [Pt (Zb 1) (Zb 1); Pt (Zb 2) (Zb 1); Pt (Zb 1) (Zb 2)]);
     ([Pt (Zb 0) (Zb 0); Pt (Zb 1) (Zb 0); Pt (Zb 0) (Zb 1)], [Pt (Zb 1) (Zb 0); Pt (Zb 2) (Zb 0); Pt (Zb 2) (Zb 1)]); ([Pt (Zb 5) (Zb 3); Pt (Zb 7) (Zb 3); Pt (Zb 7) (Zb 5)], [Pt (dec 69 1) (dec 56 1); Pt (Zb 8) (dec 475 2); Pt (dec 785 2) (dec 59 1)])]
  = Ok [(true, true); (false, false); (false, false); (true, true); (false, false); (true, false)].
Proof. vm_compute. reflexivity. Qed.

(** test_separating_axis.py:103-142 *)
Example test_box_triangle :
  mapres (sat POLY) [[Pt (Zb 1) (Zb 1); Pt (Zb 3) (Zb 0); Pt (Zb 3) (Zb 1)]; [Pt (Zb 2) (Zb 1); Pt (Zb 3) (Zb 0); Pt (Zb 3) (Zb 1)]; [Pt (dec 25 2) (dec 25 2); Pt (dec 75 2) (dec 75 2); Pt (dec 6 1) (dec 6 1)]]
  = Ok [(true, true); (false, false); (true, true)].
Proof. vm_compute. reflexivity. Qed.

(** test_separating_axis.py:145-182 *)
Example test_polygons_intersect : polygons_intersect g0 POLY [Pt (dec 25 2) (dec 25 2); Pt (dec 75 2) (dec 75 2); Pt (dec 6 1) (dec 6 1); Pt (Zb 2) (Zb 1); Pt (Zb 3) (Zb 0); Pt (Zb 3) (Zb 1)]
  [[0; 1; 2; 3]] [[0; 1; 2; -1]; [3; 4; 5; -1]] [(0, 0); (0, 1)] = Ok [true; false].
Proof. vm_compute. reflexivity. Qed.

(** test_separating_axis.py:185-223 *)
Example test_triangles_intersect_hanging_nodes : let a := [Pt (Zb 0) (Zb 0); Pt (dec 5 1) (dec 5 1); Pt (Zb 0) (Zb 1); Pt (Zb 1) (Zb 1)] in
  let r := [Pt (Zb 0) (Zb 0); Pt (dec 5 1) (dec 5 1); Pt (dec 5 1) (dec 5 1); Pt (Zb 0) (Zb 1); Pt (Zb 1) (Zb 1)] in
  mapres (fun ab => sat (fst ab) (snd ab)) [(a, a); (a, [Pt (Zb 2) (Zb 0); Pt (Zb 3) (Zb 1); Pt (dec 25 1) (Zb 1); Pt (Zb 2) (Zb 1)]); (r, r)] = Ok [(true, true); (false, false); (true, true)].
Proof. vm_compute. reflexivity. Qed.

(** ** test_sutherland_hodgman.py *)

(** test_sutherland_hodgman.py:46-59 *)
Definition hodgman_A : list (list (point b64)) :=
  [[Pt (dec 98599114 8) (dec 16203056 8); Pt (dec 64839124 8) (dec 6552714 7); Pt (dec 44528724 8) (dec 88567472 8)];
   [Pt (dec 96182162 8) (dec 3642742 7); Pt (dec 3478739 8) (dec 54268026 8); Pt (dec 57582971 8) (dec 41541277 8)];
   [Pt (dec 32556365 8) (dec 3800701 8); Pt (dec 74000686 8) (dec 4684465 8); Pt (dec 89527188 8) (dec 55061165 8)];
   [Pt (dec 2988294 7) (dec 96608896 8); Pt (dec 1212383 8) (dec 144037 8); Pt (dec 75113002 8) (dec 54797261 8)];
   [Pt (dec 6522962 8) (dec 43735202 8); Pt (dec 791499 6) (dec 5229509 7); Pt (dec 40651803 8) (dec 94317979 8)];
   [Pt (dec 6544202 8) (dec 16735701 8); Pt (dec 67916353 8) (dec 95843272 8); Pt (dec 33545733 8) (dec 86368003 8)];
   [Pt (dec 43129575 8) (dec 27998206 8); Pt (dec 49468229 8) (dec 75438255 8); Pt (dec 1542992 8) (dec 80696797 8)];
   [Pt (dec 29449023 8) (dec 32433138 8); Pt (dec 46157048 8) (dec 22492393 8); Pt (dec 82442969 8) (dec 75853821 8)];
   [Pt (dec 66113797 8) (dec 88485505 8); Pt (dec 70164374 8) (dec 24393423 8); Pt (dec 89565423 8) (dec 89407158 8)];
   [Pt (dec 92226655 8) (dec 82771688 8); Pt (dec 42243438 8) (dec 17562404 8); Pt (dec 82885357 8) (dec 17541439 8)]].
(** test_sutherland_hodgman.py:61-74 *)
Definition hodgman_B : list (list (point b64)) :=
  [[Pt (dec 8141854 7) (dec 6821897 8); Pt (dec 37086004 8) (dec 49067617 8); Pt (dec 79810508 8) (dec 7873283 8)];
   [Pt (dec 74948185 8) (dec 8942076 7); Pt (dec 59654411 8) (dec 87755533 8); Pt (dec 3023107 7) (dec 68256513 8)];
   [Pt (dec 46670989 8) (dec 31716127 8); Pt (dec 68408985 8) (dec 75792215 8); Pt (dec 41437824 8) (dec 79509823 8)];
   [Pt (dec 60715923 8) (dec 67648133 8); Pt (dec 40045464 8) (dec 79676831 8); Pt (dec 6332723 8) (dec 69679141 8)];
   [Pt (dec 24057248 8) (dec 16433727 8); Pt (dec 58871277 8) (dec 5499277 8); Pt (dec 59144784 8) (dec 24476056 8)];
   [Pt (dec 23183198 8) (dec 41619006 8); Pt (dec 66566902 8) (dec 30110111 8); Pt (dec 60418791 8) (dec 60702136 8)];
   [Pt (dec 9393344 8) (dec 87976118 8); Pt (dec 994083 6) (dec 532686 8); Pt (dec 95176396 8) (dec 79836557 8)];
   [Pt (dec 89063751 8) (dec 5880825 7); Pt (dec 3881315 8) (dec 82436939 8); Pt (dec 61391092 8) (dec 45027842 8)];
   [Pt (dec 63168954 8) (dec 75135847 8); Pt (dec 8726944 7) (dec 6387274 8); Pt (dec 89585471 8) (dec 92837592 8)];
   [Pt (dec 94379596 8) (dec 64164962 8); Pt (dec 95787609 8) (dec 65627618 8); Pt (dec 6212529 7) (dec 89153053 8)]].
(** test_sutherland_hodgman.py:77-90 *)
Definition hodgman_expected : list b64 :=
  [(Zb 0); (Zb 0); (Zb 0); (dec 262324 7); (Zb 0); (dec 38042 8); (dec 3629781 8); (dec 1677156 8); (dec 5417924 8); (dec 108787 8)].

(** test_sutherland_hodgman.py:93-110 *)
Example test_intersection : let a := Pt (Zb 0) (Zb 0) in let V := Pt (Zb 1) (Zb 1) in
  run (let* r := intersection a V (Pt (Zb 1) (Zb 0)) (Pt (Zb (-1)) (Zb (-1))) in Ok (match r with Some p => close_pt p (Pt (dec 5 1) (dec 5 1)) | None => false end))
  && run (let* r := intersection a V (Pt (Zb 1) (Zb 0)) (Pt (Zb (-1)) (Zb 1)) in Ok (match r with Some _ => false | None => true end)) = true.
Proof. vm_compute. reflexivity. Qed.

(** test_sutherland_hodgman.py:113-116 *)
Example test_clip_area : run (let* l := mapres (fun ab => polygon_polygon_clip_area g0 (fst ab) (snd ab)) (combine hodgman_A hodgman_B) in
  Ok (close_list l hodgman_expected)) = true.
Proof. vm_compute. reflexivity. Qed.

(** test_sutherland_hodgman.py:119-156; for the last pair the test only asks for a result *)
Example test_clip_area_repeated_vertex :
  run (let* l := mapres (fun ab => polygon_polygon_clip_area g0 (fst ab) (snd ab))
         [(unit_triangle, [Pt (Zb 2) (Zb 2); Pt (Zb 3) (Zb 2); Pt (Zb 3) (Zb 3)]); ([Pt (Zb 0) (Zb 0); Pt (Zb 1) (Zb 0); Pt (Zb 1) (Zb 0); Pt (Zb 1) (Zb 1)], [Pt (Zb 2) (Zb 2); Pt (Zb 3) (Zb 2); Pt (Zb 3) (Zb 2); Pt (Zb 3) (Zb 3)])] in
       let* _ := polygon_polygon_clip_area g0 [Pt (Zb 0) (Zb 0); Pt (Zb 1) (Zb 0); Pt (Zb 1) (Zb 0); Pt (Zb 1) (Zb 1)] [Pt (Zb 0) (Zb 0); Pt (Zb 1) (Zb 0); Pt (Zb 0) (Zb 1); Pt (Zb 0) (Zb 1)] in
       Ok (close_list l [(Zb 0); (Zb 0)])) = true.
Proof. vm_compute. reflexivity. Qed.

(** test_sutherland_hodgman.py:159-187: eps is 2^-52 *)
Example test_clip_area_epsilon :
  forallb (fun eps => let m := nsub ((Zb (-1))) eps in let p := nadd ((Zb 1)) eps in
    run (let* A := polygon_polygon_clip_area g0 [Pt (Zb (-1)) (Zb (-1)); Pt (Zb 1) (Zb (-1)); Pt (Zb 1) (Zb 1)] [Pt m m; Pt p m; Pt p p] in Ok (close A ((Zb 2)))))
    [bf 1 (-52); bf (-1) (-52)] = true.
Proof. vm_compute. reflexivity. Qed.

(** test_sutherland_hodgman.py:190-200 *)
Example test_area_of_intersection : let faces := map (fun i => [3 * i; 3 * i + 1; 3 * i + 2]) (iota 10) in
  run (let* l := area_of_intersection g0 (concat hodgman_A) (concat hodgman_B) faces faces (map (fun i => (i, i)) (iota 10)) in
       Ok (close_list l hodgman_expected)) = true.
Proof. vm_compute. reflexivity. Qed.

(** test_sutherland_hodgman.py:203-234 *)
Example test_box_area_of_intersection :
  run (let* l := box_area_of_intersection g0 [Box (Zb 0) (Zb 1) (Zb 0) (Zb 1); Box (Zb 1) (Zb 2) (Zb 1) (Zb 2)] [Pt (Zb 0) (Zb 0); Pt (Zb 2) (Zb 0); Pt (Zb 2) (Zb 2); Pt (Zb (-2)) (Zb 0); Pt (Zb (-2)) (Zb 2)] [[0; 1; 2]; [0; 3; 4]]
                   [(0, 0); (0, 1); (1, 0); (1, 1)] in
       Ok (close_list l [(dec 5 1); (Zb 0); (dec 5 1); (Zb 0)])) = true.
Proof. vm_compute. reflexivity. Qed.
