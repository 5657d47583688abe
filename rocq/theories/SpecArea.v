(** Area of convex sets, stated without the code under study. *)
From Coq Require Import Reals Lra.
From Verif Require Import Base Num NumR MUtils SpecGeom SpecPoly.
Open Scope R_scope.

(** [area_of S A]: either S is the set of points of a strictly convex polygon
    and A is the area of that polygon by the shoelace formula, or S lies on a
    line and A is zero. *)
Definition area_of (S : pt -> Prop) (A : R) : Prop :=
  (exists K, convex_ccw K /\ (forall p, hull K p <-> S p) /\ A = shoelace K)
  \/ (exists u v, u <> v /\ (forall p, S p -> orient u v p = 0)) /\ A = 0.
