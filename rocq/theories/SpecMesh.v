(** Geometric specification of meshes and networks, exact reals. *)
From Verif Require Import Base Num NumR MUtils SpecQuery SpecGeom SpecPoly.
Open Scope R_scope.

(** the polygon of face [j] of the caller's mesh *)
Definition face_poly (vs : list pt) (faces : list (list Z)) (fill j : Z) (poly : list pt) : Prop :=
  exists f, (0 <= j)%Z /\ nth_error (map (with_fill fill) faces) (Z.to_nat j) = Some f /\ poly_of vs f poly.

(** every face strictly convex, in either orientation *)
Definition convex_mesh (vs : list pt) (faces : list (list Z)) (fill : Z) : Prop :=
  forall j poly, face_poly vs faces fill j poly -> convex poly.

(** the end points of edge [j] of the caller's network *)
Definition edge_ends (vs : list pt) (edges : list (list Z)) (j : Z) (v0 v1 : pt) : Prop :=
  exists e, (0 <= j)%Z /\ nth_error edges (Z.to_nat j) = Some e /\ edge_of vs e v0 v1.
