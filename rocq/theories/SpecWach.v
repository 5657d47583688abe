(** What Wachspress weights are, independently of the code, and how far a point
    and a polygon keep clear of rounding. *)
From Coq Require Import Reals.
From Flocq Require Import Core.
From Verif Require Import RBase FBase SpecPoly SpecGeom GTriangle.
Open Scope R_scope.

(** [ws] are the Wachspress weights of [p] in the polygon: they sum to one, and
    the weight of the corner b between its neighbours a and c is proportional to
    area (a, b, c) / (area (a, b, p) * area (b, c, p)) *)
Definition wachspress (poly : list pt) (p : pt) (ws : list R) : Prop :=
  length ws = length poly /\ sumR ws = 1
  /\ exists s, 0 < s /\ forall i a b c w, In (a, b) (poly_edges poly) -> In (b, c) (poly_edges poly) ->
       nth_error poly i = Some b -> nth_error ws i = Some w ->
       w * (Rabs (orient a b p) * Rabs (orient b c p)) = s * Rabs (orient a b c).

(** The corners and the point are within W of each other in both coordinates;
    the triangle at each corner has twice the area D, and so has the triangle on
    each side with the tolerance as height; D is a thousand roundings of W * W. *)
Definition clear_weights (W D t : R) (poly : list pt) (p : pt) : Prop :=
  bpow radix2 (-200) <= W <= bpow radix2 252 /\ 1000 * (uro * (W * W)) <= D
  /\ (forall u v, In u (p :: poly) -> In v (p :: poly) -> Rabs (px v - px u) <= W /\ Rabs (py v - py u) <= W)
  /\ (forall a b c, In (a, b) (poly_edges poly) -> In (b, c) (poly_edges poly) -> D <= Rabs (orient a b c))
  /\ (forall u v, In (u, v) (poly_edges poly) -> D * D <= 0.8 * (t * t * dist2 v u)).

(** The same for a polygon and every point that is in it or within r of its boundary *)
Definition clear_polygon (W D t r : R) (poly : list pt) : Prop :=
  bpow radix2 (-200) <= W <= bpow radix2 252 /\ 1000 * (uro * (W * W)) <= D
  /\ (forall u v, In u poly -> In v poly -> Rabs (px v - px u) + r <= W /\ Rabs (py v - py u) + r <= W)
  /\ (forall a b c, In (a, b) (poly_edges poly) -> In (b, c) (poly_edges poly) -> D <= Rabs (orient a b c))
  /\ (forall u v, In (u, v) (poly_edges poly) -> D * D <= 0.8 * (t * t * dist2 v u)).
