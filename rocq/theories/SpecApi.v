(** Specifications phrased on the public classes. *)
From Verif Require Import Base Num MUtils MGeometry MCelltree SpecTree SpecQuery.
Open Scope Z_scope.

Section SpecApi.
  Context {T : Type} {NT : Num T} {NO : NumOrd T}.

  (** A documented 2D mesh: finite vertex coordinates, at least one face,
      every face a row of at least three vertex numbers followed by fill
      values, at most 32 columns *)
  Record mesh_ok (vs : list (point T)) (faces : list (list Z)) (fill : Z) : Prop := {
    mo_vertices : Forall finite_point vs;
    mo_nonempty : faces <> [];
    mo_faces : Forall (wf_face (length vs)) (map (with_fill fill) faces)
  }.

  (** The tolerance by which the boxes of a network are widened: the largest
      extent of the vertices times TOLERANCE_FACTOR, at least MIN_TOLERANCE *)
  Definition extent_tol (vs : list (point T)) (tol : T) : Prop :=
    exists x0 x1 y0 y1,
      In x0 (map px vs) /\ In x1 (map px vs) /\ In y0 (map py vs) /\ In y1 (map py vs)
      /\ Forall (fun p => nleb x0 (px p) = true /\ nleb (px p) x1 = true
                          /\ nleb y0 (py p) = true /\ nleb (py p) y1 = true) vs
      /\ tol = nmax nmintol (nmul ntolfac (nmax (nsub x1 x0) (nsub y1 y0))).

  (** A documented 1D network: finite vertex coordinates with room for the
      tolerance, at least one edge, every edge two vertex numbers *)
  Record network_ok (vs : list (point T)) (edges : list (list Z)) : Prop := {
    no_vertices : Forall finite_point vs;
    no_nonempty : edges <> [];
    no_edges : Forall (wf_edge (length vs)) edges;
    no_room : forall tol, extent_tol vs tol -> room tol vs
  }.

  (** box [i] of the query and the bounding box of element [j] overlap *)
  Definition boxes_pair (boxes : list (box T)) (t : tree2d (T:=T)) (i j : Z) : Prop :=
    exists a b, 0 <= i /\ 0 <= j /\ nth_error boxes (Z.to_nat i) = Some a
      /\ nth_error (bb_coords (celltree_data t)) (Z.to_nat j) = Some b
      /\ strict_overlap a b.

  (** the point is in the closed bounding box of element [j] *)
  Definition in_box_of (t : tree2d (T:=T)) (p : point T) (j : Z) : Prop :=
    exists b, 0 <= j /\ nth_error (bb_coords (celltree_data t)) (Z.to_nat j) = Some b
      /\ in_closed_box p b.
  (** face [j] passes the library's own test *)
  Definition face_passes (t : celltree T) (p : point T) (tol : T) (j : Z) : Prop :=
    exists f poly, 0 <= j /\ nth_error (elements t) (Z.to_nat j) = Some f
      /\ poly_of (vertices t) f poly /\ point_in_polygon_or_on_edge p poly tol = Ok true.

  (** edge [j] passes the library's own test *)
  Definition edge_passes (t : celltree T) (p : point T) (tol : T) (j : Z) : Prop :=
    exists e v0 v1, 0 <= j /\ nth_error (elements t) (Z.to_nat j) = Some e
      /\ edge_of (vertices t) e v0 v1 /\ point_on_edge p [v0; v1] tol = Ok true.

  (** What locate_points may answer for a point: an element that passes the
      test, or -1 and then no passing element has the point in its box *)
  Definition point_answer (passes : Z -> Prop) (t : tree2d (T:=T)) (p : point T) (j : Z) : Prop :=
    passes j \/ (j = -1 /\ forall j', passes j' -> ~ in_box_of t p j').
End SpecApi.
