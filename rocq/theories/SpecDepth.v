(** Specification of the depth of a tree, and the traversal with a stack of a
    fixed size (for comparison: the code lets the stack grow).  Independent of
    the construction code. *)
From Verif Require Import Base Num MUtils MQuery PTreeFacts.
Open Scope Z_scope.

Section SpecDepth.
  Context {T : Type} {NT : Num T}.

  (** node [i] is reached from the root in [d] steps *)
  Inductive at_depth (nodes : list (node T)) : Z -> Z -> Prop :=
  | at_root : at_depth nodes 0 0
  | at_child p i d : at_depth nodes p d -> child_of nodes p i -> at_depth nodes i (d + 1).

  Definition depth_at_most (nodes : list (node T)) (k : Z) : Prop :=
    forall i d, at_depth nodes i d -> d <= k.
End SpecDepth.

(** [MUtils.stack_loop] with an array that does not grow: writing beyond its
    end is an error *)
Section Fixed.
  Context {St A : Type}.
  Variable visit : A -> St -> res (step St A).

  Fixpoint push_all_fixed (stack : list A) (size : Z) (l : list A) : res (list A * Z) :=
    match l with
    | [] => Ok (stack, size)
    | x :: t => let* stack := aset stack size x in push_all_fixed stack (size + 1) t
    end.

  Fixpoint stack_loop_fixed (fuel : nat) (stack : list A) (size : Z) (st : St) : res St :=
    if 0 <? size then
      match fuel with
      | O => Err EFuel
      | S fuel' =>
          let* r := pop stack size in
          let* s := visit (fst r) st in
          match s with
          | Return st => Ok st
          | Next st pushes =>
              let* q := push_all_fixed stack (snd r) pushes in
              stack_loop_fixed fuel' (fst q) (snd q) st
          end
      end
    else Ok st.
End Fixed.

Section FixedTraverse.
  Context {T : Type} {NT : Num T}.

  (** the traversal of query.py with INITIAL_STACK_LENGTH entries *)
  Definition traverse_fixed {St} (g : garbage T) (tree : celltree T)
             (visit : Z -> St -> res (step St Z)) (st : St) : res St :=
    let* stack := aset (allocate_stack (gZ g)) 0 0 in
    stack_loop_fixed visit (traverse_fuel tree) stack 1 st.

  Definition collect_node_bounds_fixed (g : garbage T) (tree : celltree T) : res (list (box T)) :=
    let node_bounds := np_empty (gbox g) (length (nodes tree)) in
    let* node_bounds := aset node_bounds 0 (bbox tree) in
    let* stack := aset (allocate_stack (gZZZ g)) 0 (2, 0, 0) in
    let* stack := aset stack 1 (1, 0, 1) in
    stack_loop_fixed (bounds_visit tree) (traverse_fuel tree) stack 2 node_bounds.
End FixedTraverse.
