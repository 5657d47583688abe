(** Specifications of triangles, polygons and distances over exact reals. *)
From Coq Require Import Reals Lra.
From Verif Require Import Base Num NumR MUtils SpecGeom.
Open Scope R_scope.

(** squared Euclidean distance *)
Definition dist2 (p q : pt) : R :=
  (px p - px q) * (px p - px q) + (py p - py q) * (py p - py q).

(** distance of p to the segment a-b at most r *)
Definition near_segment (r : R) (a b p : pt) : Prop :=
  exists q, on_segment a b q /\ dist2 p q <= r * r.

(** closed triangle: convex combinations of the corners *)
Definition in_triangle (a b c p : pt) : Prop :=
  exists u v w, 0 <= u /\ 0 <= v /\ 0 <= w /\ u + v + w = 1
    /\ px p = u * px a + v * px b + w * px c
    /\ py p = u * py a + v * py b + w * py c.

(** open triangle *)
Definition inside_triangle (a b c p : pt) : Prop :=
  exists u v w, 0 < u /\ 0 < v /\ 0 < w /\ u + v + w = 1
    /\ px p = u * px a + v * px b + w * px c
    /\ py p = u * py a + v * py b + w * py c.

(** The directed sides of a closed chain: v0 -> first of l -> ... *)
Fixpoint chain (v0 : pt) (l : list pt) : list (pt * pt) :=
  match l with
  | [] => []
  | v :: t => (v0, v) :: chain v t
  end.
Definition poly_edges (poly : list pt) : list (pt * pt) :=
  chain (last poly (Pt 0 0)) poly.

(** points on or to the left of every side / strictly to the left *)
Definition in_poly (poly : list pt) (p : pt) : Prop :=
  forall u v, In (u, v) (poly_edges poly) -> 0 <= orient u v p.
Definition interior (poly : list pt) (p : pt) : Prop :=
  forall u v, In (u, v) (poly_edges poly) -> 0 < orient u v p.

(** Strictly convex, counter-clockwise: at least three different vertices, and
    every vertex that is not an end of a side lies strictly to its left. *)
Definition convex_ccw (poly : list pt) : Prop :=
  (3 <= length poly)%nat /\ NoDup poly
  /\ forall u v w, In (u, v) (poly_edges poly) -> In w poly -> w <> u -> w <> v ->
       0 < orient u v w.

(** sum of a list *)
Fixpoint sumR (l : list R) : R := match l with [] => 0 | x :: t => x + sumR t end.

(** the point sum_i w_i v_i *)
Definition comb (ws : list R) (vs : list pt) : pt :=
  Pt (sumR (map (fun wv => fst wv * px (snd wv)) (combine ws vs)))
     (sumR (map (fun wv => fst wv * py (snd wv)) (combine ws vs))).

(** convex hull *)
Definition hull (vs : list pt) (p : pt) : Prop :=
  exists ws, length ws = length vs /\ Forall (fun w => 0 <= w) ws /\ sumR ws = 1
    /\ p = comb ws vs.

(** the open hull: every weight positive *)
Definition open_hull (vs : list pt) (p : pt) : Prop :=
  exists ws, length ws = length vs /\ Forall (fun w => 0 < w) ws /\ sumR ws = 1 /\ p = comb ws vs.

(** strictly convex in either orientation *)
Definition convex (poly : list pt) : Prop := convex_ccw poly \/ convex_ccw (rev poly).

(** within distance r of a side *)
Definition near_boundary (r : R) (poly : list pt) (p : pt) : Prop :=
  exists u v, In (u, v) (poly_edges poly) /\ near_segment r u v p.

(** signed area by the shoelace formula *)
Definition shoelace (poly : list pt) : R :=
  / 2 * sumR (map (fun e => px (fst e) * py (snd e) - px (snd e) * py (fst e)) (poly_edges poly)).

(** coordinates at most 2^500: products of coordinate differences stay below FLOAT_MAX *)
Definition small (vs : list pt) : Prop :=
  Forall (fun p => Rabs (px p) <= IZR (2 ^ 500) /\ Rabs (py p) <= IZR (2 ^ 500)) vs.

(** the line through u and v has a on one side and b on the other *)
Definition line_separates (u v : pt) (a b : list pt) : Prop :=
  (forall w, In w a -> 0 <= orient u v w) /\ (forall w, In w b -> orient u v w <= 0)
  \/ (forall w, In w a -> orient u v w <= 0) /\ (forall w, In w b -> 0 <= orient u v w).
