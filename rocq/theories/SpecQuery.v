(** Specifications used by the query theorems. *)
From Verif Require Import Base Num MUtils SpecTree.

Section SpecQuery.
  Context {T : Type} {NT : Num T} {NO : NumOrd T}.
  Notation box := (box T).
  Notation point := (point T).

  Definition finite_box (b : box) : Prop :=
    fin (xmin b) /\ fin (xmax b) /\ fin (ymin b) /\ fin (ymax b).

  (** The intervals of the boxes overlap strictly in x and in y *)
  Definition strict_overlap (a b : box) : Prop :=
    nltb (xmin a) (xmax b) = true /\ nltb (xmin b) (xmax a) = true
    /\ nltb (ymin a) (ymax b) = true /\ nltb (ymin b) (ymax a) = true.

  (** The point is in the closed box *)
  Definition in_closed_box (p : point) (b : box) : Prop :=
    nleb (xmin b) (px p) = true /\ nleb (px p) (xmax b) = true
    /\ nleb (ymin b) (py p) = true /\ nleb (py p) (ymax b) = true.

  (** Box [a] lies within box [b] *)
  Definition box_within (a b : box) : Prop :=
    nleb (xmin b) (xmin a) = true /\ nleb (xmax a) (xmax b) = true
    /\ nleb (ymin b) (ymin a) = true /\ nleb (ymax a) (ymax b) = true.

  (** A correct tree: every element 0..n-1 is stored once, the node array is
      a tree over it with valid split bounds, every node belongs to it, and
      the bounding box contains every element box. *)
  Record valid_tree (t : celltree T) : Prop := {
    vt_nonempty : (1 <= length (bb_coords t))%nat;
    vt_elements : length (elements t) = length (bb_coords t);
    vt_finite : Forall finite_box (bb_coords t);
    vt_perm : Permutation (bb_indices t) (iota (length (bb_coords t)));
    vt_tree : exists S, TreeAt (nodes t) (bb_coords t) (bb_indices t) 0 0
                               (zlen (bb_coords t)) S
                        /\ Permutation S (iota (length (nodes t)));
    vt_bbox : Forall (fun b => box_within b (bbox t)) (bb_coords t)
  }.
End SpecQuery.

(** The entries of a face before the first fill value *)
Fixpoint until_fill (l : list Z) : list Z :=
  match l with
  | [] => []
  | x :: t => if x =? -1 then [] else x :: until_fill t
  end.

(** A face row as documented: at least three vertices, at most 32 columns,
    every entry a vertex number, padded at the end with -1 *)
Definition wf_face (n_vertex : nat) (f : list Z) : Prop :=
  (3 <= length (until_fill f))%nat /\ (length f <= 32)%nat
  /\ Forall (fun i => 0 <= i < Z.of_nat n_vertex) (until_fill f)
  /\ Forall (fun i => i = -1) (skipn (length (until_fill f)) f).

(** The vertices of a face *)
Definition poly_of {T} (vs : list (point T)) (f : list Z) (poly : list (point T)) : Prop :=
  Forall2 (fun i p => 0 <= i /\ nth_error vs (Z.to_nat i) = Some p) (until_fill f) poly.

Section SpecMesh.
  Context {T : Type} {NT : Num T} {NO : NumOrd T}.

  Definition finite_point (p : point T) : Prop := fin (px p) /\ fin (py p).

  (** The smallest box around a list of points: it contains all of them and
      each of its sides is the coordinate of one of them *)
  Definition tight_box (poly : list (point T)) (b : box T) : Prop :=
    Forall (fun p => in_closed_box p b) poly
    /\ Exists (fun p => px p = xmin b) poly /\ Exists (fun p => px p = xmax b) poly
    /\ Exists (fun p => py p = ymin b) poly /\ Exists (fun p => py p = ymax b) poly.

  (** [fill_value] replaced by -1 *)
  Definition with_fill (fill : Z) (f : list Z) : list Z :=
    map (fun i => if i =? fill then -1 else i) f.

  (** The same vertices in the same or the reverse order, same padding *)
  Definition same_face (f f' : list Z) : Prop :=
    skipn (length (until_fill f)) f' = skipn (length (until_fill f)) f
    /\ (until_fill f' = until_fill f \/ until_fill f' = rev (until_fill f)).

  (** A valid tree over a mesh: well-formed faces, tight boxes *)
  Record mesh_tree (t : celltree T) : Prop := {
    mt_valid : valid_tree t;
    mt_vertices : Forall finite_point (vertices t);
    mt_faces : Forall (wf_face (length (vertices t))) (elements t);
    mt_boxes : Forall2 (fun f b => exists poly, poly_of (vertices t) f poly /\ tight_box poly b)
                       (elements t) (bb_coords t)
  }.
End SpecMesh.

Section SpecEdges.
  Context {T : Type} {NT : Num T} {NO : NumOrd T}.

  (** The end points of an edge *)
  Definition edge_of (vs : list (point T)) (e : list Z) (v0 v1 : point T) : Prop :=
    exists i j, e = [i; j] /\ 0 <= i /\ 0 <= j
      /\ nth_error vs (Z.to_nat i) = Some v0 /\ nth_error vs (Z.to_nat j) = Some v1.

  (** A row of two vertex numbers *)
  Definition wf_edge (n_vertex : nat) (e : list Z) : Prop :=
    exists i j, e = [i; j] /\ 0 <= i < Z.of_nat n_vertex /\ 0 <= j < Z.of_nat n_vertex.

  (** [s] is the smallest (largest) of two numbers, by comparison *)
  Definition smallest (s a b : T) : Prop := (s = a \/ s = b) /\ nleb s a = true /\ nleb s b = true.
  Definition largest (s a b : T) : Prop := (s = a \/ s = b) /\ nleb a s = true /\ nleb b s = true.

  (** The box of the two end points moved outward by [tol] *)
  Definition widened_box (tol : T) (v0 v1 : point T) (b : box T) : Prop :=
    smallest (xmin b) (nsub (px v0) tol) (nsub (px v1) tol)
    /\ largest (xmax b) (nadd (px v0) tol) (nadd (px v1) tol)
    /\ smallest (ymin b) (nsub (py v0) tol) (nsub (py v1) tol)
    /\ largest (ymax b) (nadd (py v0) tol) (nadd (py v1) tol).

  (** A valid tree over a network of edges *)
  Record network_tree (tol : T) (t : celltree T) : Prop := {
    nt_valid : valid_tree t;
    nt_vertices : Forall finite_point (vertices t);
    nt_edges : Forall (wf_edge (length (vertices t))) (elements t);
    nt_boxes : Forall2 (fun e b => exists v0 v1, edge_of (vertices t) e v0 v1
                                    /\ widened_box tol v0 v1 b)
                       (elements t) (bb_coords t)
  }.

  (** Moving every end point by [tol] stays finite *)
  Definition room (tol : T) (vs : list (point T)) : Prop :=
    Forall (fun p => fin (nsub (px p) tol) /\ fin (nadd (px p) tol)
                     /\ fin (nsub (py p) tol) /\ fin (nadd (py p) tol)) vs.

End SpecEdges.
