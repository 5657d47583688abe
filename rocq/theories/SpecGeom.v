(** Specifications of plane geometry over exact reals: point sets, segments,
    boxes, clipping. *)
From Coq Require Import Reals Lra.
From Verif Require Import Base Num NumR MUtils.
Open Scope R_scope.

Notation pt := (point R).
Notation bx := (box R).

(** the point a + t (b - a) *)
Definition at_ (a b : pt) (t : R) : pt :=
  Pt (px a + t * (px b - px a)) (py a + t * (py b - py a)).

Definition on_segment (a b x : pt) : Prop := exists t, 0 <= t <= 1 /\ x = at_ a b t.

(** closed box *)
Definition in_box (b : bx) (x : pt) : Prop :=
  xmin b <= px x <= xmax b /\ ymin b <= py x <= ymax b.

Definition wf_box (b : bx) : Prop := xmin b <= xmax b /\ ymin b <= ymax b.

(** Twice the signed area of the triangle u v w: positive if w is to the left
    of the directed line from u to v *)
Definition orient (u v w : pt) : R :=
  (px v - px u) * (py w - py u) - (py v - py u) * (px w - px u).

(** What clipping the segment a-b by the set S has to return: nothing if the
    segment has at most one point in common with S, otherwise the end points
    of exactly the common part, ordered from a to b *)
Definition clip_result (S : pt -> Prop) (a b : pt) (r : option (pt * pt)) : Prop :=
  match r with
  | None => forall x y, on_segment a b x -> on_segment a b y -> S x -> S y -> x = y
  | Some (c, d) =>
      a <> b /\ exists s t, 0 <= s < t /\ t <= 1 /\ c = at_ a b s /\ d = at_ a b t
        /\ forall u, 0 <= u <= 1 -> (S (at_ a b u) <-> s <= u <= t)
  end.
