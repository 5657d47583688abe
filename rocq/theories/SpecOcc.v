(** Specification of how full the leaves of a tree are.  Independent of the
    construction code. *)
From Verif Require Import Base Num MUtils SpecTree.

Section SpecOcc.
  Context {T : Type} {NT : Num T}.
  Local Open Scope num_scope.

  (** centre of a box in a direction *)
  Definition centre (d : bool) (b : box T) : T := side_lo d b + nhalf * (side_hi d b - side_lo d b).

  (** [c] is in part [i] of [nb] parts of length [len] starting at [lo] (and in
      none before) *)
  Definition in_part (lo len : T) (i : Z) (c : T) : bool :=
    nleb (nofZ i * len + lo) c && nltb c (nofZ (i + 1) * len + lo).
  Definition part_is (nb : Z) (lo len : T) (i : Z) (c : T) : Prop :=
    (0 <= i < nb)%Z /\ in_part lo len i c = true /\ forall k, (0 <= k < i)%Z -> in_part lo len k c = false.

  (** the boxes of the elements bbi[a..b) extend from [lo] to [hi] *)
  Definition extends (bbc : list (box T)) (bbi : list Z) (a b : Z) (d : bool) (lo hi : T) : Prop :=
    range_all bbc bbi a b (fun bx => nleb lo (side_lo d bx) = true)
    /\ range_ex bbc bbi a b (fun bx => nleb (side_lo d bx) lo = true)
    /\ range_all bbc bbi a b (fun bx => nleb (side_hi d bx) hi = true)
    /\ range_ex bbc bbi a b (fun bx => nleb hi (side_hi d bx) = true).

  (** all centres in the same of [nb] equal parts of that extent *)
  Definition in_one_part (nb : Z) (bbc : list (box T)) (bbi : list Z) (a b : Z) (d : bool) : Prop :=
    exists lo hi len i, extends bbc bbi a b d lo hi /\ ndiv (hi - lo) (nofZ nb) = Ok len
      /\ range_all bbc bbi a b (fun bx => part_is nb lo len i (centre d bx)).

  (** two centres in different parts *)
  Definition in_two_parts (nb : Z) (bbc : list (box T)) (bbi : list Z) (a b : Z) (d : bool) : Prop :=
    exists lo hi len i j, extends bbc bbi a b d lo hi /\ ndiv (hi - lo) (nofZ nb) = Ok len /\ i <> j
      /\ range_ex bbc bbi a b (fun bx => part_is nb lo len i (centre d bx))
      /\ range_ex bbc bbi a b (fun bx => part_is nb lo len j (centre d bx)).

  (** A node is a leaf if it has at most [cpl] elements or cannot be divided in
      either direction; a node is divided if it has more than [cpl] elements
      and can be divided in its direction (two elements always can if there
      is to be one per leaf). *)
  Definition node_full (nb cpl : Z) (bbc : list (box T)) (bbi : list Z) (nd : node T) : Prop :=
    let a := nptr nd in let b := (nptr nd + nsize nd)%Z in
    (nchild nd = (-1)%Z -> (nsize nd <= cpl)%Z \/ forall d, in_one_part nb bbc bbi a b d)
    /\ (nchild nd <> (-1)%Z -> (cpl < nsize nd)%Z
          /\ ((cpl = 1%Z /\ nsize nd = 2%Z) \/ in_two_parts nb bbc bbi a b (ndim nd))).
End SpecOcc.
