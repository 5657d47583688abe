(** The repository's tests of CellTree2d (/repo/tests/test_celltree.py), run on
    the model in binary64; see TestSuite.  The tests on the meshes of
    /repo/tests/data are in TestMesh. *)
From Verif Require Import Base Num MUtils MGeometry MCreation MAlgorithms MQuery MCelltree NumB64 Examples TestSuite.
From Flocq Require Import BinarySingleNaN.
Open Scope Z_scope.

Definition is_ok {A} (r : res A) : bool := match r with Ok _ => true | Err _ => false end.
Definition built vs faces fill nb cpl (k : tree2d (T:=b64) -> res bool) : bool := run (let* t := CellTree2d_init g0 vs faces fill nb cpl in k t).
Definition finds (t : tree2d (T:=b64)) points tol expected : bool :=
  run (let* l := CellTree2d_locate_points g0 t points tol in Ok (zlist_eqb l expected)).

(** test_celltree.py:22-35 *)
Definition nodes2 : list (point b64) := [Pt (Zb 0) (Zb 0); Pt (Zb 2) (Zb 0); Pt (Zb 1) (Zb 2); Pt (Zb 3) (Zb 2)].
Definition faces2 : list (list Z) := [[0; 1; 2]; [1; 3; 2]].

(** test_celltree.py:95-104; the defaults are n_buckets = 4 and cells_per_leaf = 2 *)
Example test_init : forallb (fun p => is_ok (CellTree2d_init g0 nodes2 faces2 (-1) (fst p) (snd p))) [(4, 2); (2, 1); (4, 2); (4, 2)] = true.
Proof. vm_compute. reflexivity. Qed.

(** test_celltree.py:127-131 *)
Example test_fill_value_conversion : built nodes2 [[0; 1; 2; -999]; [1; 3; 2; -999]] (-999) 4 2 (fun t =>
  Ok (zlist_eqb (map (fun f => last f 0) (elements (celltree_data t))) [-1; -1])) = true.
Proof. vm_compute. reflexivity. Qed.

(** test_celltree.py:159-164 *)
Example test_bounds_errors : raises_value (CellTree2d_init g0 nodes2 faces2 (-1) 4 (-1)) && raises_value (CellTree2d_init g0 nodes2 faces2 (-1) 0 2) = true.
Proof. vm_compute. reflexivity. Qed.

(** test_celltree.py:167-178 and 181-195 *)
Example test_triangle_lookup : built nodes2 faces2 (-1) 4 2 (fun t =>
  let points := [Pt (dec (-9) 2) (Zb 0); Pt (Zb 2) (Zb 1); Pt (Zb (-1)) (Zb 1)] in
  Ok (finds t [Pt (Zb 1) (Zb 1); Pt (Zb 2) (Zb 1); Pt (Zb (-1)) (Zb 1)] None [0; 1; -1] && finds t points (Some ((dec 1 9))) [-1; 1; -1] && finds t points (Some ((dec 1 1))) [0; 1; -1])) = true.
Proof. vm_compute. reflexivity. Qed.

(** the nodes of test_celltree.py:200-215, 261-276, 334-349 and 378-393 *)
Definition nodes12 : list (point b64) := [Pt (Zb 0) (Zb 0); Pt (Zb 0) (Zb 2); Pt (Zb 2) (Zb 0); Pt (Zb 2) (Zb 2); Pt (Zb 4) (Zb 0); Pt (Zb 4) (Zb 2); Pt (Zb 6) (Zb 0); Pt (Zb 6) (Zb 2); Pt (Zb 0) (Zb 4); Pt (Zb 2) (Zb 4); Pt (Zb 4) (Zb 4); Pt (Zb 6) (Zb 4)].
(** test_celltree.py:278-280, 351-353 and 395-397 *)
Definition faces12 : list (list Z) := [[0; 8; 9; 5; 2]; [9; 11; 7; 5; -1]; [4; 7; 6; -1; -1]].

(** test_celltree.py:198-256 *)
Example test_poly_lookup :
  built nodes12 [[0; 2; 3; 1]; [4; 6; 7; 5]] (-1) 2 1 (fun t => Ok (finds t [Pt (Zb 1) (Zb 1); Pt (Zb 5) (Zb 1); Pt (Zb (-1)) (Zb 1)] None [0; 1; -1]))
  && built nodes12 [[0; 8; 9; 5; 2]; [9; 11; 6; 2; 5]] (-1) 2 1 (fun t => Ok (finds t [Pt (Zb 1) (Zb 2); Pt (Zb 5) (Zb 2); Pt (Zb (-1)) (Zb 2)] None [0; 1; -1])) = true.
Proof. vm_compute. reflexivity. Qed.

(** test_celltree.py:259-313 *)
Example test_multi_poly_lookup : built nodes12 faces12 (-1) 2 1 (fun t =>
  let points := [Pt (dec (-9) 9) (Zb 0); Pt (Zb 2) (dec (-9) 9); Pt (dec (-9) 9) (Zb 1); Pt (Zb 1) (dec (-9) 9); Pt (dec (-11) 9) (Zb 1); Pt (Zb 1) (dec (-11) 9); Pt (dec (-11) 9) (Zb 0); Pt (Zb 2) (dec (-15) 9)] in
  Ok (finds t [Pt (Zb 1) (Zb 1); Pt (Zb 5) (dec 5 1); Pt (Zb 5) (Zb 3); Pt (Zb (-1)) (Zb 1)] None [0; 2; 1; -1]
      && finds t points None [-1; -1; -1; -1; -1; -1; -1; -1]
      && finds t points (Some ((dec 1 8))) [0; 0; 0; 0; -1; -1; -1; -1])) = true.
Proof. vm_compute. reflexivity. Qed.

(** test_celltree.py:38-59 and 61-83 *)
Definition nodes21 : list (point b64) :=
  [Pt (Zb 5) (Zb 1); Pt (Zb 10) (Zb 1); Pt (Zb 3) (Zb 3); Pt (Zb 7) (Zb 3); Pt (Zb 9) (Zb 4); Pt (Zb 12) (Zb 4); Pt (Zb 5) (Zb 5); Pt (Zb 3) (Zb 7); Pt (Zb 5) (Zb 7); Pt (Zb 7) (Zb 7); Pt (Zb 9) (Zb 7); Pt (Zb 11) (Zb 7); Pt (Zb 5) (Zb 9); Pt (Zb 8) (Zb 9); Pt (Zb 11) (Zb 9);
   Pt (Zb 9) (Zb 11); Pt (Zb 11) (Zb 11); Pt (Zb 7) (Zb 13); Pt (Zb 9) (Zb 13); Pt (Zb 7) (Zb 15)].
Definition faces21 : list (list Z) :=
  [[0; 1; 3]; [0; 2; 6]; [0; 3; 6]; [1; 3; 4]; [1; 4; 5]; [2; 6; 7]; [6; 7; 8]; [7; 8; 12]; [6; 8; 9]; [8; 9; 12]; [9; 12; 13];
   [4; 5; 11]; [4; 10; 11]; [9; 10; 13]; [10; 11; 14]; [10; 13; 14]; [13; 14; 15]; [14; 15; 16]; [15; 16; 18]; [15; 17; 18]; [17; 18; 19]].

(** test_celltree.py:316-330 *)
Example test_multipoint : built nodes21 faces21 (-1) 4 2 (fun t =>
  Ok (finds t [Pt (dec 42 1) (Zb 3); Pt (dec 77 1) (dec 135 1); Pt (dec 34 1) (dec 7000000001 9); Pt (Zb 7) (Zb 5); Pt (dec 866 2) (dec 1099 2); Pt (dec 73 1) (dec 74 2); Pt (dec 25 1) (dec 55 1); Pt (dec 98 1) (dec 123 1)] None
        [1; 20; 7; -1; -1; -1; -1; -1])) = true.
Proof. vm_compute. reflexivity. Qed.

(** test_celltree.py:333-374 *)
Example test_box_lookup : built nodes12 faces12 (-1) 2 1 (fun t =>
  let boxes := [Box (Zb 1) (Zb 2) (Zb 1) (Zb 2); Box (Zb 4) (Zb 5) (Zb 0) (Zb 1); Box (Zb 4) (Zb 5) (Zb 2) (Zb 3); Box (Zb (-1)) (Zb 0) (Zb 0) (Zb 4); Box (Zb 6) (Zb 8) (Zb 0) (Zb 4); Box (Zb 0) (Zb 6) (Zb (-1)) (Zb 0); Box (Zb 0) (Zb 6) (Zb 4) (Zb 5)] in
  let expected ij := zlist_eqb (map fst ij) [0; 1; 2] && zlist_eqb (map snd ij) [0; 2; 1] in
  let* l := CellTree2d_locate_boxes g0 4 t boxes in let* m := CellTree2d_intersect_boxes g0 4 t boxes in
  Ok (expected l && expected (map fst m))) = true.
Proof. vm_compute. reflexivity. Qed.

(** test_celltree.py:377-420 *)
Example test_edge_lookup : built nodes12 faces12 (-1) 2 1 (fun t =>
  let segments := [(Pt (Zb 1) (Zb 1), Pt (Zb 2) (Zb 2)); (Pt (Zb 4) (Zb 3), Pt (Zb 5) (Zb 4)); (Pt (Zb 5) (Zb 0), Pt (Zb 6) (Zb 1)); (Pt (Zb (-2)) (Zb (-1)), Pt (Zb 0) (Zb 1)); (Pt (Zb (-2)) (Zb (-1)), Pt (Zb (-2)) (Zb (-1)))] in
  let agrees (segs : list (point b64 * point b64)) :=
    let* l := CellTree2d_intersect_edges g0 8 4 t segs in
    Ok (zlist_eqb (map (fun r => fst (fst r)) l) [0; 1; 2] && zlist_eqb (map (fun r => snd (fst r)) l) [0; 1; 2]
        && all2 (fun r s => match snd r with (Some p, Some q) => close_pt p (fst s) && close_pt q (snd s) | _ => false end) l (firstn 3 segs)) in
  let* a := agrees segments in let* b := agrees (map (fun s => (snd s, fst s)) segments) in Ok (a && b)) = true.
Proof. vm_compute. reflexivity. Qed.

(** test_celltree.py:528-548 and 551-588 *)
Example test_compute_barycentric_weights :
  built nodes2 faces2 (-1) 4 2 (fun t => let* r := CellTree2d_compute_barycentric_weights g0 t 3 [Pt (Zb 0) (Zb 0); Pt (Zb 1) (Zb 1); Pt (Zb 2) (Zb 1)] None in
    Ok (zlist_eqb (fst r) [0; 0; 1]
        && all2 close_list (snd r) [[(Zb 1); (Zb 0); (Zb 0)]; [(dec 25 2); (dec 25 2); (dec 5 1)]; [(dec 5 1); (dec 25 2); (dec 25 2)]]))
  && built [Pt (Zb 0) (Zb 0); Pt (Zb 2) (Zb 0); Pt (Zb 2) (Zb 2); Pt (Zb 0) (Zb 2); Pt (Zb 4) (Zb 0); Pt (Zb 4) (Zb 4)] [[0; 1; 2; 3]; [1; 4; 5; 2]] (-1) 4 2 (fun t =>
    let* r := CellTree2d_compute_barycentric_weights g0 t 4 [Pt (Zb 0) (Zb 0); Pt (Zb 1) (Zb 1); Pt (Zb 2) (Zb 1)] None in
    Ok (zlist_eqb (fst r) [0; 0; 0]
        && all2 close_list (snd r) [[(Zb 1); (Zb 0); (Zb 0); (Zb 0)]; [(dec 25 2); (dec 25 2); (dec 25 2); (dec 25 2)]; [(Zb 0); (dec 5 1); (dec 5 1); (Zb 0)]])) = true.
Proof. vm_compute. reflexivity. Qed.

(** test_celltree.py:642-710 *)
Example test_locate_point_on_edge : let e := (dec 1 9) in
  let all_found t points tol := run (let* l := CellTree2d_locate_points g0 t points tol in Ok (forallb (fun i => negb (i =? -1)) l)) in
  built [Pt (Zb 0) (Zb 0); Pt (Zb 3) (Zb 0); Pt (Zb 1) (Zb 1); Pt (Zb 0) (Zb 2); Pt (Zb 3) (Zb 2)] [[0; 1; 2]; [0; 2; 3]; [2; 4; 3]] (-1) 4 2 (fun t =>
    Ok (all_found t [Pt (Zb 0) (Zb 0); Pt (dec 1 2) (dec 1 2); Pt (dec 5 2) (dec 5 2); Pt (dec 15 2) (dec 15 2); Pt (dec 25 2) (dec 25 2); Pt (dec 35 2) (dec 35 2); Pt (dec 45 2) (dec 45 2); Pt (dec 55 2) (dec 55 2); Pt (dec 65 2) (dec 65 2); Pt (dec 75 2) (dec 75 2)] None))
  && built [Pt (Zb 0) (Zb 0); Pt (Zb 2) (Zb 0); Pt (Zb 2) (Zb 2); Pt (Zb 0) (Zb 2); Pt (Zb 4) (Zb 0); Pt (Zb 4) (Zb 4); Pt (Zb 0) (Zb 4)] [[0; 1; 2; 3]; [1; 4; 5; 2]; [3; 2; 5; 6]] (-1) 4 2 (fun t =>
    let points := [Pt (nopp e) ((Zb 1)); Pt (nadd ((Zb 4)) e) ((Zb 1)); Pt (Zb 2) (Zb 2); Pt ((Zb 3)) (nopp e); Pt ((Zb 3)) (nadd ((Zb 4)) e)] in
    Ok (finds t points (Some ((dec 9 10))) [-1; -1; 2; -1; -1] && all_found t points (Some ((dec 11 10))))) = true.
Proof. vm_compute. reflexivity. Qed.
