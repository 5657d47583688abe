(** What it means to leave the caller's arrays alone, and what the arguments
    denote. *)
From Verif Require Import Base Num MUtils MGeometry MHeap.

Section SpecHeap.
  Context {T : Type}.
  Notation heap := (heap (T:=T)).

  (** What a call returns or raises, and the heap afterwards *)
  Definition value_of {X} (m : hm (T:=T) X) h : res X := fst (m h).
  Definition after {X} (m : hm (T:=T) X) h : heap := snd (m h).

  (** Every array that existed in [h] still has the same contents in [h'] *)
  Record keeps (h h' : heap) : Prop := {
    k_int : forall l v, nth_error (h_int h) l = Some v -> nth_error (h_int h') l = Some v;
    k_float : forall l v, nth_error (h_float h) l = Some v -> nth_error (h_float h') l = Some v }.

  (** The same, except for the integer array at [fl] *)
  Record keeps_but (fl : nat) (h h' : heap) : Prop := {
    kb_int : forall l v, l <> fl -> nth_error (h_int h) l = Some v -> nth_error (h_int h') l = Some v;
    kb_float : forall l v, nth_error (h_float h) l = Some v -> nth_error (h_float h') l = Some v }.

  (** The value of an argument *)
  Definition int_value (h : heap) (a : int_arg) : option (list (list Z)) :=
    match a with INd l | ILike l => nth_error (h_int h) l | IList v => Some v end.
  Definition float_value (h : heap) (a : float_arg (T:=T)) : option (list (point T)) :=
    match a with FNd l _ | FLike l => nth_error (h_float h) l | FList v => Some v end.

  (** ndarrays and lists, as the type annotations ask for *)
  Definition int_plain (a : int_arg) : Prop := match a with ILike _ => False | _ => True end.
  Definition float_plain (a : float_arg (T:=T)) : Prop := match a with FLike _ => False | _ => True end.

  (** The caller may overwrite any of the arrays of [h] afterwards: [h'] has
      arbitrary contents in these and agrees with [h2] on the others. *)
  Record scribble (h h2 h' : heap) : Prop := {
    s_int : forall l, (length (h_int h) <= l)%nat -> nth_error (h_int h') l = nth_error (h_int h2) l;
    s_float : forall l, (length (h_float h) <= l)%nat -> nth_error (h_float h') l = nth_error (h_float h2) l }.
End SpecHeap.
