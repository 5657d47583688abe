(** Specification of where a node is divided.  Independent of the construction
    code. *)
From Verif Require Import RBase SpecTree SpecOcc.
Open Scope Z_scope.

Section SpecSplit.
  Context {T : Type} {NT : Num T}.

  (** The node is divided at [mid]: its extent is cut into [nb] equal parts; the
      elements with their centre in one of the first [c] parts come first, the
      others after them.  The bounds stored in the node are sides of elements
      of the two halves.  Two elements to be put in a leaf each are divided
      without regard to their centres. *)
  Definition node_divided (nb cpl : Z) (bbc : list (box T)) (bbi : list Z) (nd : node T) (mid : Z) : Prop :=
    let a := nptr nd in let b := nptr nd + nsize nd in let d := ndim nd in
    a < mid < b
    /\ (cpl = 1 /\ nsize nd = 2
        \/ exists lo hi len c,
             extends bbc bbi a b d lo hi /\ ndiv (nsub hi lo) (nofZ nb) = Ok len /\ 0 < c < nb
             /\ range_all bbc bbi a mid (fun bx => exists i, i < c /\ part_is nb lo len i (centre d bx))
             /\ range_all bbc bbi mid b (fun bx => exists i, c <= i /\ part_is nb lo len i (centre d bx))
             /\ range_ex bbc bbi a mid (fun bx => nleb (nLmax nd) (side_hi d bx) = true)
             /\ range_ex bbc bbi mid b (fun bx => nleb (side_lo d bx) (nRmin nd) = true)).

  (** the boxes of the elements bbi[a..b), in order *)
  Definition boxes_in (bbc : list (box T)) (bbi : list Z) (a b : Z) (l : list (box T)) : Prop :=
    exists p s q, bbi = p ++ s ++ q /\ zlen p = a /\ zlen s = b - a
      /\ Forall2 (fun e bx => aget bbc e = Ok bx) s l.
End SpecSplit.

(** ** Costs, over the reals *)
Open Scope R_scope.

(** lower end of part [k] of [nb] *)
Definition part_end (nb : Z) (lo hi : R) (k : Z) : R := IZR k * ((hi - lo) / IZR nb) + lo.

Definition below (d : bool) (x : R) (bx : box R) : bool := Rlt_bool (centre d bx) x.

(** [v] is the estimated cost of dividing the boxes [l], extending from [lo] to
    [hi], after [c] parts: the last part before the cut with a centre is [i],
    the highest upper side of the boxes of that part is [a]; [j] and [b] are
    the same beyond the cut.  Distances are counted in parts. *)
Definition cut_cost (nb : Z) (d : bool) (lo hi : R) (l : list (box R)) (c : Z) (v : R) : Prop :=
  let x := part_end nb lo hi in
  (0 < c < nb)%Z /\ exists i j a b,
    (0 <= i < c)%Z /\ (c <= j < nb)%Z
    /\ (forall bx, In bx l -> ~ x (i + 1)%Z <= centre d bx < x c)
    /\ (forall bx, In bx l -> ~ x c <= centre d bx < x j)
    /\ (exists bx, In bx l /\ x i <= centre d bx < x (i + 1)%Z /\ side_hi d bx = a)
    /\ (forall bx, In bx l -> x i <= centre d bx < x (i + 1)%Z -> side_hi d bx <= a)
    /\ (exists bx, In bx l /\ x j <= centre d bx < x (j + 1)%Z /\ side_lo d bx = b)
    /\ (forall bx, In bx l -> x j <= centre d bx < x (j + 1)%Z -> b <= side_lo d bx)
    /\ v = (a - lo) / ((hi - lo) / IZR nb) * IZR (zlen (filter (below d (x c)) l))
           + (hi - b) / ((hi - lo) / IZR nb) * IZR (zlen (filter (fun bx => negb (below d (x c) bx)) l)).

(** The node is divided at [mid] where this cost is least *)
Definition divided_cheaply (nb cpl : Z) (bbc : list (box R)) (bbi : list Z) (nd : node R) (mid : Z) : Prop :=
  let d := ndim nd in
  (cpl = 1 /\ nsize nd = 2)%Z
  \/ exists lo hi l1 l2 c v,
       boxes_in bbc bbi (nptr nd) mid l1 /\ boxes_in bbc bbi mid (nptr nd + nsize nd) l2
       /\ (forall bx, In bx (l1 ++ l2) -> lo <= side_lo d bx /\ side_hi d bx <= hi)
       /\ (exists bx, In bx (l1 ++ l2) /\ side_lo d bx = lo)
       /\ (exists bx, In bx (l1 ++ l2) /\ side_hi d bx = hi)
       /\ (forall bx, In bx l1 -> centre d bx < part_end nb lo hi c)
       /\ (forall bx, In bx l2 -> part_end nb lo hi c <= centre d bx)
       /\ cut_cost nb d lo hi (l1 ++ l2) c v
       /\ forall c' v', cut_cost nb d lo hi (l1 ++ l2) c' v' -> v <= v'.
