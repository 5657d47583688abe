(** The repository's tests of argument shapes (/repo/tests/test_celltree.py), run on
    the model in binary64; see TestSuite. *)
From Verif Require Import Base Num MUtils MGeometry MCreation MAlgorithms MQuery MCelltree MCast NumB64 Examples TestSuite TestCelltree.
From Flocq Require Import BinarySingleNaN.
Open Scope Z_scope.

Definition to_z (x : b64) : Z := Btrunc x.
Definition to_z_list (x : b64) : res Z := if is_finite x then Ok (Btrunc x) else Err EValue.
Definition int_list (l : list Z) : nest (T:=b64) := MCast.Node (map (fun i => Leaf (SI i)) l).
Definition float_list (l : list Z) : nest (T:=b64) := MCast.Node (map (fun i => Leaf (SF (Zb i))) l).
Definition construct := CellTree2d_init_arg (T:=b64) to_z to_z_list g0.

(** test_celltree.py:22-32 *)
Definition nodes2_list : arg (T:=b64) := ANest (MCast.Node (map float_list [[0; 0]; [2; 0]; [1; 2]; [3; 2]])).
Definition faces2_list : arg (T:=b64) := ANest (MCast.Node (map int_list faces2)).

(** test_celltree.py:115-117 *)
Example test_lists : is_ok (construct nodes2_list faces2_list (-1) 4 2) = true.
Proof. vm_compute. reflexivity. Qed.

(** test_celltree.py:134-156 *)
Example test_shape_errors :
  let faces := ANest (int_list [0; 1; 2; 1; 3; 2]) in
  let nodes := ANest (MCast.Node (map int_list [[1; 2; 3]; [3; 4; 5]; [4; 5; 6]])) in
  let box_coords := ANd (NDArray [4%nat] (FBuf (map Zb [0; 1; 2; 3]))) in
  let edge_coords := ANd (NDArray [2%nat; 2%nat] (FBuf (map Zb [0; 1; 2; 3]))) in
  raises_value (construct nodes faces2_list (-1) 4 2) && raises_value (construct nodes2_list faces (-1) 4 2)
  && match construct nodes2_list faces2_list (-1) 4 2 with
     | Ok (tree, _) =>
         raises_value (locate_points_arg g0 tree nodes None)
         && raises_value (intersect_faces_arg to_z to_z_list g0 2 tree nodes faces2_list (-1))
         && raises_value (intersect_faces_arg to_z to_z_list g0 2 tree faces nodes2_list (-1))
         && raises_value (locate_boxes_arg g0 2 tree box_coords)
         && raises_value (intersect_boxes_arg g0 2 tree box_coords)
         && raises_value (intersect_edges_arg g0 10 2 tree edge_coords)
     | Err _ => false
     end = true.
Proof. vm_compute. reflexivity. Qed.
