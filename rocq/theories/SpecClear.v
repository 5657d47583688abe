(** When a polygon clipped side by side stays clear of the next side. *)
From Coq Require Import Reals Lra.
From Verif Require Import Base Num NumR MUtils SpecGeom SpecPoly.
Open Scope R_scope.

(** a corner of a set: in it, and not strictly between two of its points *)
Definition corner (S : pt -> Prop) (x : pt) : Prop :=
  S x /\ forall p q t, S p -> S q -> 0 < t < 1 -> x = at_ p q t -> p = q.

(** the larger of the two extents of a side *)
Definition side_size (u v : pt) : R := Rmax (Rabs (px v - px u)) (Rabs (py v - py u)).

(** Cut a by the sides of b one after the other: every corner of what is left
    before a side is at least d away from the line of that side (|orient u v x|
    is the distance of x to the line times the length of u v, and the length is
    between side_size and sqrt 2 times side_size). *)
Definition clear_corners (d : R) (a b : list pt) : Prop :=
  forall pre u v post, poly_edges b = pre ++ (u, v) :: post ->
  forall x, corner (fun p => hull a p /\ forall u' v', In (u', v') pre -> 0 <= orient u' v' p) x ->
    d * side_size u v <= Rabs (orient u v x).
