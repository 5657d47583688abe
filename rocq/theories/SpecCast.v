(** What an argument holds: its shape and its elements by index.  Independent of
    the conversions of cast.py. *)
From Verif Require Import Base Num MUtils MGeometry MCast.

Section SpecCast.
  Context {T : Type} {NT : Num T}.
  Notation point := (point T).
  Notation box := (box T).
  Notation scalar := (scalar (T:=T)).
  Notation nest := (nest (T:=T)).
  Notation ndarray := (ndarray (T:=T)).
  Notation arg := (arg (T:=T)).

  (** nested lists form an array of shape [s]: equal lengths at every level *)
  Inductive nest_has : nest -> list nat -> Prop :=
  | has_leaf x : nest_has (Leaf x) []
  | has_empty : nest_has (Node []) [0%nat]
  | has_node l s : l <> [] -> (forall c, In c l -> nest_has c s) -> nest_has (Node l) (length l :: s).

  Definition has_shape (a : arg) (s : list nat) : Prop :=
    match a with ANd a => nd_shape a = s | ANest n => nest_has n s end.

  (** the element at an index *)
  Fixpoint nest_at (n : nest) (ix : list nat) : option scalar :=
    match n, ix with
    | Leaf x, [] => Some x
    | Node l, i :: ix => match nth_error l i with Some c => nest_at c ix | None => None end
    | _, _ => None
    end.
  Definition size (s : list nat) : nat := fold_right Nat.mul 1%nat s.
  (** row-major order *)
  Fixpoint read {A} (s : list nat) (d : list A) (ix : list nat) : option A :=
    match s, ix with
    | [], [] => nth_error d 0
    | m :: s, i :: ix => if (i <? m)%nat then read s (skipn (i * size s) d) ix else None
    | _, _ => None
    end.
  Definition elements (b : buffer (T:=T)) : list scalar :=
    match b with FBuf l => map SF l | IBuf l => map SI l end.
  Definition arr_at (a : arg) (ix : list nat) : option scalar :=
    match a with
    | ANd a => read (nd_shape a) (elements (nd_buf a)) ix
    | ANest n => nest_at n ix
    end.
  (** an ndarray has as many elements as its shape says *)
  Definition wf_arg (a : arg) : Prop :=
    match a with ANd a => length (elements (nd_buf a)) = size (nd_shape a) | ANest _ => True end.

  (** the number an element stands for *)
  Definition number (x : scalar) : T := match x with SF x => x | SI n => nofZ n end.
  Definition num_at (a : arg) (ix : list nat) (v : T) : Prop := exists x, arr_at a ix = Some x /\ v = number x.

  Definition holds_points (a : arg) (ps : list point) : Prop :=
    has_shape a [length ps; 2%nat]
    /\ forall i p, nth_error ps i = Some p -> num_at a [i; 0%nat] (px p) /\ num_at a [i; 1%nat] (py p).
  Definition holds_boxes (a : arg) (bs : list box) : Prop :=
    has_shape a [length bs; 4%nat]
    /\ forall i b, nth_error bs i = Some b ->
      num_at a [i; 0%nat] (xmin b) /\ num_at a [i; 1%nat] (xmax b)
      /\ num_at a [i; 2%nat] (ymin b) /\ num_at a [i; 3%nat] (ymax b).
  Definition holds_edges (a : arg) (es : list (point * point)) : Prop :=
    has_shape a [length es; 2%nat; 2%nat]
    /\ forall i e, nth_error es i = Some e ->
      num_at a [i; 0%nat; 0%nat] (px (fst e)) /\ num_at a [i; 0%nat; 1%nat] (py (fst e))
      /\ num_at a [i; 1%nat; 0%nat] (px (snd e)) /\ num_at a [i; 1%nat; 1%nat] (py (snd e)).
  (** integers, with [w] columns *)
  Definition holds_ints (a : arg) (w : nat) (fs : list (list Z)) : Prop :=
    has_shape a [length fs; w]
    /\ forall i f, nth_error fs i = Some f -> length f = w
      /\ forall j n, nth_error f j = Some n -> arr_at a [i; j] = Some (SI n).
  (** all elements are integers *)
  Definition int_arg (a : arg) : Prop := forall ix x, arr_at a ix = Some x -> exists n, x = SI n.

  Definition same_argument (a b : arg) : Prop :=
    (forall s, has_shape a s <-> has_shape b s) /\ forall ix, arr_at a ix = arr_at b ix.
End SpecCast.
