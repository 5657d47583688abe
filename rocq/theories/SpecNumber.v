(** Meshes that list the same coordinates: the numbering of the vertices, vertices
    that no element uses, repeated vertices and padding may differ. *)
From Verif Require Import Base Num MUtils SpecTree SpecQuery.
Local Open Scope Z_scope.

Section Number.
  Context {T : Type} {NT : Num T} {NO : NumOrd T}.

  (** face by face the same corners in the same order *)
  Definition same_corners (vs : list (point T)) (faces : list (list Z)) (fill : Z)
                          (vs' : list (point T)) (faces' : list (list Z)) (fill' : Z) : Prop :=
    Forall2 (fun f f' => exists poly, poly_of vs (with_fill fill f) poly /\ poly_of vs' (with_fill fill' f') poly) faces faces'.

  (** edge by edge the same end points *)
  Definition same_ends (vs : list (point T)) (edges : list (list Z)) (vs' : list (point T)) (edges' : list (list Z)) : Prop :=
    Forall2 (fun e e' => exists v0 v1, edge_of vs e v0 v1 /\ edge_of vs' e' v0 v1) edges edges'.

  (** [r] gives every vertex its new number *)
  Definition renumbers (r : Z -> Z) (vs vs' : list (point T)) : Prop :=
    forall i p, 0 <= i -> nth_error vs (Z.to_nat i) = Some p -> 0 <= r i /\ nth_error vs' (Z.to_nat (r i)) = Some p.
  (** vertex numbers are replaced, padding stays *)
  Definition renumber (r : Z -> Z) (f : list Z) : list Z := map (fun i => if i <? 0 then i else r i) f.
End Number.
