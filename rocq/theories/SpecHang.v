(** Faces with hanging nodes: polygons with extra vertices on the sides of a
    strictly convex outline, exact reals. *)
From Verif Require Import Base Num NumR MUtils SpecQuery SpecGeom SpecPoly SpecMesh.
Open Scope R_scope.

(** [hanging P Q]: Q lists the corners P of the outline in the same order, from
    any start, with any number of vertices strictly inside the sides. *)
Inductive hanging (P : list pt) : list pt -> Prop :=
| hanging_none : hanging P P
| hanging_rot l1 l2 : hanging P (l1 ++ l2) -> hanging P (l2 ++ l1)
| hanging_node u v rest t : hanging P (v :: rest) -> u = last rest v -> 0 < t < 1 ->
    hanging P (at_ u v t :: v :: rest).

(** counter-clockwise, or in either orientation *)
Definition hanging_ccw (Q : list pt) : Prop := exists P, convex_ccw P /\ hanging P Q.
Definition hanging_face (Q : list pt) : Prop := hanging_ccw Q \/ hanging_ccw (rev Q).
Definition hanging_mesh (vs : list pt) (faces : list (list Z)) (fill : Z) : Prop :=
  forall j poly, face_poly vs faces fill j poly -> hanging_face poly.

(** counter-clockwise, or clockwise with a corner of the outline listed last *)
Definition orientable (Q : list pt) : Prop :=
  hanging_ccw Q
  \/ exists P, convex_ccw P /\ hanging P (rev Q) /\ In (last Q (Pt 0 0)) P.
Definition orientable_mesh (vs : list pt) (faces : list (list Z)) (fill : Z) : Prop :=
  forall j poly, face_poly vs faces fill j poly -> orientable poly.
