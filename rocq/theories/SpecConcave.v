(** Specification of faces that need not be convex: polygons cut along chords
    into convex pieces. *)
From Coq Require Import Reals List.
From Verif Require Import Base Num NumR MUtils SpecGeom SpecPoly SpecMesh SpecHang.
Open Scope R_scope.

(** [cut Q Ps]: repeatedly dividing Q along a chord from one vertex to another
    leaves the polygons Ps, each strictly convex but for hanging nodes *)
Inductive cut : list pt -> list (list pt) -> Prop :=
| cut_convex Q : hanging_face Q -> cut Q [Q]
| cut_rot l1 l2 Ps : cut (l1 ++ l2) Ps -> cut (l2 ++ l1) Ps
| cut_chord u v l1 l2 Ps Qs : cut (u :: l1 ++ [v]) Ps -> cut (v :: l2 ++ [u]) Qs ->
    cut (u :: l1 ++ v :: l2) (Ps ++ Qs).

(** pieces that do not overlap *)
Definition apart_pieces : list (list pt) -> Prop :=
  ForallOrdPairs (fun P P' => forall p, ~ (open_hull P p /\ open_hull P' p)).
Definition pieces (Q : list pt) (Ps : list (list pt)) : Prop := cut Q Ps /\ apart_pieces Ps.

(** the points of the polygon *)
Definition region (Ps : list (list pt)) (p : pt) : Prop := exists P, In P Ps /\ hull P p.
(** the points on a side of the polygon *)
Definition on_outline (Q : list pt) (p : pt) : Prop :=
  exists u v, In (u, v) (poly_edges Q) /\ on_segment u v p.

(** every face can be cut like this *)
Definition simple_mesh (vs : list pt) (faces : list (list Z)) (fill : Z) : Prop :=
  forall j poly, face_poly vs faces fill j poly -> exists Ps, pieces poly Ps.
