(** Specification of the order in which a point query looks at the elements of a tree. *)
From Verif Require Import Base Num MUtils MGeometry SpecTree.

Section SpecVisit.
  Context {T : Type} {NT : Num T}.

  (** coordinate of the point in the dimension of a node *)
  Definition along (p : point T) (nd : node T) : T := if ndim nd then py p else px p.
  (** the point is not beyond the left / not before the right child *)
  Definition reaches_left (p : point T) (nd : node T) : Prop := nleb (along p nd) (nLmax nd) = true.
  Definition reaches_right (p : point T) (nd : node T) : Prop := nleb (nRmin nd) (along p nd) = true.
  (** the point is farther inside the right child than inside the left one *)
  Definition deeper_right (p : point T) (nd : node T) : Prop :=
    nltb (nsub (nLmax nd) (along p nd)) (nsub (along p nd) (nRmin nd)) = true.

  (** [searched nodes bbi p idx l]: below node [idx] the elements [l] are looked at, in this order: a leaf in the
      order of bb_indices; of two children that can contain the point, the one in which it lies deeper first *)
  Inductive searched (nodes : list (node T)) (bbi : list Z) (p : point T) : Z -> list Z -> Prop :=
  | SLeaf idx nd : 0 <= idx -> nth_error nodes (Z.to_nat idx) = Some nd -> nchild nd = -1 ->
      searched nodes bbi p idx (firstn (Z.to_nat (nsize nd)) (skipn (Z.to_nat (nptr nd)) bbi))
  | SRightFirst idx nd l r : 0 <= idx -> nth_error nodes (Z.to_nat idx) = Some nd -> nchild nd <> -1 ->
      reaches_left p nd -> reaches_right p nd -> deeper_right p nd ->
      searched nodes bbi p (nchild nd) l -> searched nodes bbi p (nchild nd + 1) r -> searched nodes bbi p idx (r ++ l)
  | SLeftFirst idx nd l r : 0 <= idx -> nth_error nodes (Z.to_nat idx) = Some nd -> nchild nd <> -1 ->
      reaches_left p nd -> reaches_right p nd -> ~ deeper_right p nd ->
      searched nodes bbi p (nchild nd) l -> searched nodes bbi p (nchild nd + 1) r -> searched nodes bbi p idx (l ++ r)
  | SLeft idx nd l : 0 <= idx -> nth_error nodes (Z.to_nat idx) = Some nd -> nchild nd <> -1 ->
      reaches_left p nd -> ~ reaches_right p nd -> searched nodes bbi p (nchild nd) l -> searched nodes bbi p idx l
  | SRight idx nd r : 0 <= idx -> nth_error nodes (Z.to_nat idx) = Some nd -> nchild nd <> -1 ->
      ~ reaches_left p nd -> reaches_right p nd -> searched nodes bbi p (nchild nd + 1) r -> searched nodes bbi p idx r
  | SNone idx nd : 0 <= idx -> nth_error nodes (Z.to_nat idx) = Some nd -> nchild nd <> -1 ->
      ~ reaches_left p nd -> ~ reaches_right p nd -> searched nodes bbi p idx [].

  (** [j] is the first element of [l] that passes, or -1 if none does *)
  Definition first_of (passes : Z -> Prop) (l : list Z) (j : Z) : Prop :=
    (exists pre post, l = pre ++ j :: post /\ passes j /\ Forall (fun i => ~ passes i) pre)
    \/ (j = -1 /\ Forall (fun i => ~ passes i) l).
  (** [listed nodes bbi idx l]: [l] are the elements below node [idx], those of the right child first, a leaf in the
      order of bb_indices *)
  Inductive listed (nodes : list (node T)) (bbi : list Z) : Z -> list Z -> Prop :=
  | LLeaf idx nd : 0 <= idx -> nth_error nodes (Z.to_nat idx) = Some nd -> nchild nd = -1 ->
      listed nodes bbi idx (firstn (Z.to_nat (nsize nd)) (skipn (Z.to_nat (nptr nd)) bbi))
  | LSplit idx nd l r : 0 <= idx -> nth_error nodes (Z.to_nat idx) = Some nd -> nchild nd <> -1 ->
      listed nodes bbi (nchild nd) l -> listed nodes bbi (nchild nd + 1) r -> listed nodes bbi idx (r ++ l).

  (** [l'] are the elements of [l] with [P], in the order of [l] *)
  Inductive kept (P : Z -> Prop) : list Z -> list Z -> Prop :=
  | KNil : kept P [] []
  | KKeep x l l' : P x -> kept P l l' -> kept P (x :: l) (x :: l')
  | KDrop x l l' : ~ P x -> kept P l l' -> kept P (x :: l) l'.
End SpecVisit.
