(** Model of the mesh helpers of numba_celltree/demo.py: [close_polygons] and
    [edges].  (plot_edges and plot_boxes hand arrays to matplotlib and are not
    modelled; generate_disk is in MDisk.v.) *)
From Verif Require Import Base Num MUtils.

(** A 2d integer array is its list of rows.  numpy's [flat[mask] = values]:
    the values go to the masked cells in order; another number of values raises
    ValueError. *)
Fixpoint mask_assign (flat : list Z) (mask : list bool) (values : list Z) : res (list Z) :=
  match flat, mask with
  | x :: flat, m :: mask =>
      if m : bool then
        match values with
        | v :: values => let* r := mask_assign flat mask values in Ok (v :: r)
        | [] => Err EValue
        end
      else let* r := mask_assign flat mask values in Ok (x :: r)
  | _, _ => match values with [] => Ok [] | _ => Err EValue end
  end.

(** [reshape]: the rows of [w] columns *)
Fixpoint rows_of (n w : nat) (flat : list Z) : list (list Z) :=
  match n with
  | O => []
  | S n' => firstn w flat :: rows_of n' w (skipn w flat)
  end.

(** np.repeat(values, counts) *)
Fixpoint np_repeat {A} (values : list A) (counts : list nat) : list A :=
  match values, counts with
  | v :: values, c :: counts => repeat v c ++ np_repeat values counts
  | _, _ => []
  end.

(** isfill.sum(axis=1) for one row *)
Definition count_true (l : list bool) : nat := length (filter (fun b => b) l).

(** demo.py:11-21.  [ravel] of the freshly allocated array is a view, so the
    assignment changes [closed].  An array of no columns has no column 0. *)
Definition close_polygons (face_node_connectivity : list (list Z)) (fill_value : Z) : res (list (list Z)) :=
  let n := length face_node_connectivity in
  let closed := map (fun row => row ++ [fill_value]) face_node_connectivity in
  let* first_node := mapres (fun row => aget row 0) face_node_connectivity in
  let isfill := map (map (fun x => x =? fill_value)) closed in
  let m1 := match closed with [] => 0%nat | row :: _ => length row end in
  let* flat := mask_assign (concat closed) (concat isfill)
                 (np_repeat first_node (map count_true isfill)) in
  Ok (rows_of n m1 flat).

(** np.unique(rows, axis=0): the distinct rows in lexicographic order, here by
    insertion *)
Definition row_lt (a b : Z * Z) : bool := (fst a <? fst b) || ((fst a =? fst b) && (snd a <? snd b)).
Fixpoint row_insert (a : Z * Z) (l : list (Z * Z)) : list (Z * Z) :=
  match l with
  | [] => [a]
  | b :: t => if row_lt a b then a :: l else if row_lt b a then b :: row_insert a t else l
  end.
Definition np_unique_rows (l : list (Z * Z)) : list (Z * Z) := fold_right row_insert [] l.

(** demo.py:24-43 *)
Definition edges (face_node_connectivity : list (list Z)) (fill_value : Z) : res (list (Z * Z)) :=
  let* closed := close_polygons face_node_connectivity fill_value in
  let edge_node_connectivity :=
    combine (concat (map (fun row => removelast row) closed)) (concat (map (fun row => tl row) closed)) in
  let kept := filter (fun e => negb (fst e =? snd e)) edge_node_connectivity in
  let sorted := map (fun e => (Z.min (fst e) (snd e), Z.max (fst e) (snd e))) kept in
  Ok (np_unique_rows sorted).

(** demo.py:126-147: the coordinates are multiples of 1/4 *)
Definition example_1d_network {T} {NT : Num T} : list (point T) * list (list Z) :=
  let c k := (nhalf * (nhalf * nofZ k))%num in
  (map (fun xy => Pt (c (fst xy)) (c (snd xy)))
     [(0, 0); (1, 4); (5, 8); (6, 10); (10, 13); (10, 10); (11, 15); (12, 8); (1, 7); (2, 9)],
   [[0; 1]; [1; 2]; [2; 3]; [3; 4]; [3; 5]; [4; 6]; [5; 7]; [1; 8]; [8; 9]]).
