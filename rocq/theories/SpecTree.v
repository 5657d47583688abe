(** Specification of the node array: what a correct tree over the elements of
    [bbi] looks like.  Independent of the construction code. *)
From Verif Require Import Base Num MUtils.

Section SpecTree.
  Context {T : Type} {NT : Num T}.

  (** lower / upper side of a box in a dimension (false = x, true = y) *)
  Definition side_lo (d : bool) (b : box T) : T := if d then ymin b else xmin b.
  Definition side_hi (d : bool) (b : box T) : T := if d then ymax b else xmax b.

  (** All boxes of the elements bbi[a..b) satisfy P *)
  Definition range_all (bbc : list (box T)) (bbi : list Z) (a b : Z) (P : box T -> Prop) : Prop :=
    forall i e bx, a <= i < b -> aget bbi i = Ok e -> aget bbc e = Ok bx -> P bx.

  (** Some box of the elements bbi[a..b) satisfies P *)
  Definition range_ex (bbc : list (box T)) (bbi : list Z) (a b : Z) (P : box T -> Prop) : Prop :=
    exists i e bx, a <= i < b /\ aget bbi i = Ok e /\ aget bbc e = Ok bx /\ P bx.

  (** [TreeAt nodes bbc bbi idx lo hi S]: the subtree rooted at node [idx]
      stores exactly the entries [lo, hi) of bb_indices; [S] lists its nodes.
      A leaf has child -1.  A split node has two non-empty subtrees, stored at
      consecutive indices after it, that partition its range, and its bounds
      are valid: no element of the left subtree reaches beyond Lmax, none of
      the right subtree starts before Rmin; and Lmax and Rmin do not exceed the
      extent of the elements of the node. *)
  Inductive TreeAt (nodes : list (node T)) (bbc : list (box T)) (bbi : list Z)
    : Z -> Z -> Z -> list Z -> Prop :=
  | TLeaf idx lo hi nd :
      0 <= idx -> aget nodes idx = Ok nd ->
      nchild nd = -1 -> nptr nd = lo -> nsize nd = hi - lo -> lo < hi ->
      TreeAt nodes bbc bbi idx lo hi [idx]
  | TSplit idx lo mid hi nd c S1 S2 :
      0 <= idx -> aget nodes idx = Ok nd ->
      nchild nd = c -> idx < c -> nptr nd = lo -> nsize nd = hi - lo ->
      range_all bbc bbi lo mid (fun b => nleb (side_hi (ndim nd) b) (nLmax nd) = true) ->
      range_all bbc bbi mid hi (fun b => nleb (nRmin nd) (side_lo (ndim nd) b) = true) ->
      range_ex bbc bbi lo hi (fun b => nleb (nLmax nd) (side_hi (ndim nd) b) = true) ->
      range_ex bbc bbi lo hi (fun b => nleb (side_lo (ndim nd) b) (nRmin nd) = true) ->
      TreeAt nodes bbc bbi c lo mid S1 ->
      TreeAt nodes bbc bbi (c + 1) mid hi S2 ->
      TreeAt nodes bbc bbi idx lo hi (idx :: S1 ++ S2).
End SpecTree.
