(** Model of numba_celltree/utils.py and the record types of constants.py. *)
From Verif Require Import Base Num.

(** constants.py:133-144 *)
Definition MAX_N_VERTEX : nat := 32.
Definition FILL_VALUE : Z := -1.
Definition INITIAL_STACK_LENGTH : nat := 32.
(** utils.py:102 CLIP_MAX_N_VERTEX = MAX_N_VERTEX * 2 *)
Definition CLIP_MAX_N_VERTEX : nat := 64.

(** constants.py:36-55 Point, Vector (same shape), Box *)
Record point (T : Type) := Pt { px : T; py : T }.
Arguments Pt {T} px py.
Arguments px {T} p.
Arguments py {T} p.

Record box (T : Type) := Box { xmin : T; xmax : T; ymin : T; ymax : T }.
Arguments Box {T} xmin xmax ymin ymax.
Arguments xmin {T} b.
Arguments xmax {T} b.
Arguments ymin {T} b.
Arguments ymax {T} b.

(** constants.py:64-70, 92-106 Node *)
Record node (T : Type) := Node {
  nchild : Z; nLmax : T; nRmin : T; nptr : Z; nsize : Z; ndim : bool }.
Arguments Node {T}.
Arguments nchild {T}.
Arguments nLmax {T}.
Arguments nRmin {T}.
Arguments nptr {T}.
Arguments nsize {T}.
Arguments ndim {T}.

(** constants.py:73-79, 109-122 Bucket *)
Record bucket (T : Type) := Bucket {
  bMax : T; bMin : T; bRmin : T; bLmax : T; bindex : Z; bsize : Z }.
Arguments Bucket {T}.
Arguments bMax {T}.
Arguments bMin {T}.
Arguments bRmin {T}.
Arguments bLmax {T}.
Arguments bindex {T}.
Arguments bsize {T}.

(** constants.py:82-89 CellTreeData.  [vertices] is an (n,2) array modelled as
    a list of points, [elements] an (n,m) integer array modelled as a list of
    rows, [bb_coords] an (n,4) array modelled as a list of boxes. *)
Record celltree (T : Type) := CellTree {
  elements : list (list Z);
  vertices : list (point T);
  nodes : list (node T);
  bb_indices : list Z;
  bb_coords : list (box T);
  bbox : box T;
  cells_per_leaf : Z }.
Arguments CellTree {T}.
Arguments elements {T}.
Arguments vertices {T}.
Arguments nodes {T}.
Arguments bb_indices {T}.
Arguments bb_coords {T}.
Arguments bbox {T}.
Arguments cells_per_leaf {T}.

(** Contents of uninitialised memory ([np.empty], stack allocated arrays):
    an arbitrary value for every array size and position.  Every theorem
    quantifies over it. *)
Record garbage (T : Type) := Garbage {
  gZ : nat -> nat -> Z;
  gZZ : nat -> nat -> Z * Z;
  gZZZ : nat -> nat -> Z * Z * Z;
  gpt : nat -> nat -> point T;
  gnode : nat -> nat -> node T;
  gbox : nat -> nat -> box T;
  gpp : nat -> nat -> option (point T) * option (point T) }.
Arguments gZ {T}.
Arguments gZZ {T}.
Arguments gZZZ {T}.
Arguments gpt {T}.
Arguments gnode {T}.
Arguments gbox {T}.
Arguments gpp {T}.

Definition np_empty {A} (mem : nat -> nat -> A) (n : nat) : list A :=
  map (mem n) (seq 0 n).

Section Stack.
  Context {A : Type}.
  Variable mem : nat -> nat -> A.

  (** utils.py:20-31 allocate_stack / allocate_double_stack /
      allocate_triple_stack; a row of the (n,2) and (n,3) arrays is a tuple. *)
  Definition allocate_stack : list A := np_empty mem INITIAL_STACK_LENGTH.

  (** utils.py:91-97 grow: new = np.empty(2n); new[:n] = array *)
  Definition grow (array : list A) : list A :=
    let n := length array in
    array ++ skipn n (np_empty mem (2 * n)).

  (** utils.py:35-36 pop, 64-68 pop_both, 82-87 pop_triple *)
  Definition pop (array : list A) (size : Z) : res (A * Z) :=
    let* v := aget array (size - 1) in Ok (v, size - 1).

  (** utils.py:40-44 push, 55-60 push_both, 72-78 push_triple *)
  Definition push (array : list A) (value : A) (size : Z) : res (list A * Z) :=
    let array := if zlen array <=? size then grow array else array in
    let* array := aset array size value in
    Ok (array, size + 1).
End Stack.

(** utils.py:48-51 copy: for i in range(n): dst[i] = src[i] *)
Definition copy {A} (src dst : list A) (n : Z) : res (list A) :=
  for_range 0 n (fun i dst => let* v := aget src i in aset dst i v) dst.

(** The loop shared by build (creation.py:249-379) and all tree traversals
    (query.py:71-105, 130-162, 206-242, 360-431, 548-580, 598-622):
<<
    while size > 0:
        x, size = pop(stack, size)
        ...                      # visit
        stack, size = push(stack, y, size)   # zero or more times
>>
    [visit x st] gives the new state and the values pushed, in order, or an
    early return.  [fuel] bounds the number of rounds; running out is [EFuel]. *)
Inductive step (St A : Type) :=
| Next (st : St) (pushes : list A)
| Return (st : St).
Arguments Next {St A}.
Arguments Return {St A}.

Section StackLoop.
  Context {St A : Type}.
  Variable mem : nat -> nat -> A.
  Variable visit : A -> St -> res (step St A).

  Fixpoint push_all (stack : list A) (size : Z) (l : list A) : res (list A * Z) :=
    match l with
    | [] => Ok (stack, size)
    | x :: t => let* r := push mem stack x size in push_all (fst r) (snd r) t
    end.

  Fixpoint stack_loop (fuel : nat) (stack : list A) (size : Z) (st : St) : res St :=
    if 0 <? size then
      match fuel with
      | O => Err EFuel
      | S fuel' =>
          let* r := pop stack size in
          let* s := visit (fst r) st in
          match s with
          | Return st => Ok st
          | Next st pushes =>
              let* q := push_all stack (snd r) pushes in
              stack_loop fuel' (fst q) (snd q) st
          end
      end
    else Ok st.
End StackLoop.
