(** The array stacks of utils.py behave as unbounded LIFO lists. *)
From Verif Require Import Base Num MUtils.

Section StackRep.
  Context {A : Type}.

  (** [arr], [size] represent the list [l] (top first). *)
  Definition StackRep (arr : list A) (size : Z) (l : list A) : Prop :=
    size = zlen l /\ (length l <= length arr)%nat /\ firstn (length l) arr = rev l
    /\ arr <> [].

  Lemma pop_rep arr size x l :
    StackRep arr size (x :: l) ->
    pop arr size = Ok (x, size - 1) /\ StackRep arr (size - 1) l.
  Proof.
    intros (Hs & Hle & Hf & Hne). simpl length in *. simpl rev in Hf.
    assert (Hnth : nth_error arr (length l) = Some x).
    { transitivity (nth_error (firstn (S (length l)) arr) (length l)).
      - rewrite <- (firstn_skipn (S (length l)) arr) at 1.
        rewrite nth_error_app1; auto. rewrite firstn_length. lia.
      - rewrite Hf, nth_error_app2; rewrite rev_length; [|lia].
        now rewrite Nat.sub_diag. }
    assert (Hz : size - 1 = zlen l) by (unfold zlen in *; simpl length in Hs; lia).
    split.
    - unfold pop. rewrite Hz. unfold zlen.
      rewrite (aget_nat _ _ _ Hnth). reflexivity.
    - repeat split; auto; [lia|].
      replace (firstn (length l) arr)
        with (firstn (length l) (firstn (S (length l)) arr)).
      + rewrite Hf, firstn_app, rev_length, Nat.sub_diag, firstn_O, app_nil_r.
        apply firstn_all2. rewrite rev_length. lia.
      + rewrite firstn_firstn. f_equal. lia.
  Qed.

  Variable mem : nat -> nat -> A.

  Lemma np_empty_length n : length (np_empty mem n) = n.
  Proof. unfold np_empty. now rewrite map_length, seq_length. Qed.

  Lemma grow_length arr : length (grow mem arr) = (2 * length arr)%nat.
  Proof.
    unfold grow. rewrite app_length, skipn_length, np_empty_length. lia.
  Qed.

  Lemma grow_prefix arr : firstn (length arr) (grow mem arr) = arr.
  Proof.
    unfold grow. rewrite firstn_app, Nat.sub_diag, firstn_all. simpl. apply app_nil_r.
  Qed.

  Lemma firstn_list_set (l : list A) k v :
    (k < length l)%nat -> firstn (S k) (list_set l k v) = firstn k l ++ [v].
  Proof.
    revert k; induction l as [|h t IH]; intros [|k] H; simpl in *; try lia; auto.
    rewrite <- IH by lia. reflexivity.
  Qed.

  Lemma push_rep arr size l x :
    StackRep arr size l ->
    exists arr', push mem arr x size = Ok (arr', size + 1)
                 /\ StackRep arr' (size + 1) (x :: l).
  Proof.
    intros (Hs & Hle & Hf & Hne). unfold push.
    set (arr1 := if zlen arr <=? size then grow mem arr else arr).
    assert (H1 : (length l < length arr1)%nat /\ firstn (length l) arr1 = rev l).
    { subst arr1. destruct (zlen arr <=? size) eqn:E.
      - assert (Hll : length l = length arr) by (unfold zlen in *; lia).
        assert (length arr <> O) by (destruct arr; simpl; congruence).
        rewrite grow_length. split; [lia|].
        rewrite Hll, grow_prefix. rewrite <- Hf, Hll, firstn_all. reflexivity.
      - split; auto. unfold zlen in *; lia. }
    destruct H1 as (Hlt & Hf1).
    assert (Hset : aset arr1 size x = Ok (list_set arr1 (length l) x)).
    { rewrite Hs. unfold zlen. now apply aset_nat. }
    rewrite Hset. simpl. exists (list_set arr1 (length l) x). split; auto.
    repeat split.
    - unfold zlen in *. simpl length. lia.
    - rewrite list_set_length. simpl. lia.
    - simpl length. rewrite firstn_list_set by lia. simpl. now rewrite Hf1.
    - intros E. apply (f_equal (@length A)) in E. rewrite list_set_length in E.
      simpl in E. lia.
  Qed.

  Lemma push_all_rep xs : forall arr size l,
    StackRep arr size l ->
    exists arr' size', push_all mem arr size xs = Ok (arr', size')
                 /\ StackRep arr' size' (rev xs ++ l).
  Proof.
    induction xs as [|x xs IH]; intros arr size l H; simpl.
    - eauto.
    - destruct (push_rep arr size l x H) as (arr1 & E & H1). rewrite E. simpl.
      destruct (IH _ _ _ H1) as (arr2 & s2 & E2 & H2). rewrite E2.
      exists arr2, s2. split; auto. now rewrite <- app_assoc.
  Qed.

  (** np.empty then stack[0] = x *)
  Lemma alloc_rep x :
    exists arr, aset (allocate_stack mem) 0 x = Ok arr /\ StackRep arr 1 [x].
  Proof.
    unfold allocate_stack.
    assert (Hl := np_empty_length INITIAL_STACK_LENGTH).
    destruct (np_empty mem INITIAL_STACK_LENGTH) as [|h t]; [discriminate|].
    exists (x :: t). split.
    - rewrite aset_pos by (unfold zlen; simpl length; lia). reflexivity.
    - repeat split; simpl; auto; [lia|discriminate].
  Qed.

  Lemma alloc_rep2 x y :
    exists arr arr', aset (allocate_stack mem) 0 x = Ok arr /\ aset arr 1 y = Ok arr'
                     /\ StackRep arr' 2 [y; x].
  Proof.
    unfold allocate_stack.
    assert (Hl := np_empty_length INITIAL_STACK_LENGTH).
    destruct (np_empty mem INITIAL_STACK_LENGTH) as [|h [|h' t]]; try discriminate.
    exists (x :: h' :: t), (x :: y :: t). repeat split; simpl; auto; try lia; try discriminate.
    rewrite aset_pos by (unfold zlen; simpl length; lia). reflexivity.
  Qed.

  Lemma alloc_empty_rep : StackRep (allocate_stack mem) 0 [].
  Proof.
    repeat split; simpl; auto; try lia.
    unfold allocate_stack. intros E. apply (f_equal (@length A)) in E.
    rewrite np_empty_length in E. discriminate.
  Qed.
End StackRep.

(** The same loop on an unbounded list stack *)
Section ListLoop.
  Context {St A : Type}.
  Variable mem : nat -> nat -> A.
  Variable visit : A -> St -> res (step St A).

  Fixpoint list_loop (fuel : nat) (l : list A) (st : St) : res St :=
    match l with
    | [] => Ok st
    | x :: t =>
        match fuel with
        | O => Err EFuel
        | S fuel' =>
            let* s := visit x st in
            match s with
            | Return st => Ok st
            | Next st pushes => list_loop fuel' (rev pushes ++ t) st
            end
        end
    end.

  Lemma stack_loop_list fuel : forall arr size l st,
    StackRep arr size l ->
    stack_loop mem visit fuel arr size st = list_loop fuel l st.
  Proof.
    induction fuel as [|fuel IH]; intros arr size l st H.
    - destruct l as [|x t]; destruct H as (Hs & _); simpl; subst size; reflexivity.
    - destruct l as [|x t].
      + destruct H as (Hs & _). subst size. reflexivity.
      + assert (Hpos : (0 <? size) = true).
        { destruct H as (Hs & _). subst size. unfold zlen. apply Z.ltb_lt. simpl length. lia. }
        simpl. rewrite Hpos.
        destruct (pop_rep _ _ _ _ H) as (Ep & H1). rewrite Ep. simpl.
        destruct (visit x st) as [[st' pushes|st']|e]; simpl; auto.
        destruct (push_all_rep mem pushes _ _ _ H1) as (arr2 & s2 & E2 & H2).
        rewrite E2. simpl. now apply IH.
  Qed.

  Lemma list_loop_mono fuel fuel' l st r :
    list_loop fuel l st = r -> r <> Err EFuel -> (fuel <= fuel')%nat ->
    list_loop fuel' l st = r.
  Proof.
    revert fuel' l st; induction fuel as [|fuel IH]; intros fuel' l st H Hr Hle.
    - destruct l; simpl in H; [|congruence]. destruct fuel'; auto.
    - destruct fuel' as [|fuel']; [lia|].
      destruct l as [|x t]; simpl in *; auto.
      destruct (visit x st) as [[st' pushes|st']|e]; simpl in *; auto.
      apply IH; auto; lia.
  Qed.
End ListLoop.

(** Any sequence of stack operations *)
Inductive op (A : Type) := OPush (a : A) | OPop.
Arguments OPush {A}.
Arguments OPop {A}.

(** What an unbounded list does: the popped values in order; [None] if an
    empty stack is popped. *)
Fixpoint run_list {A} (l : list A) (ops : list (op A)) : option (list A) :=
  match ops with
  | [] => Some []
  | OPush a :: t => run_list (a :: l) t
  | OPop :: t =>
      match l with
      | [] => None
      | x :: l' => option_map (cons x) (run_list l' t)
      end
  end.

(** What the library's push / pop do *)
Fixpoint run_array {A} (mem : nat -> nat -> A) (arr : list A) (size : Z) (ops : list (op A))
  : res (list A) :=
  match ops with
  | [] => Ok []
  | OPush a :: t =>
      let* r := push mem arr a size in run_array mem (fst r) (snd r) t
  | OPop :: t =>
      let* r := pop arr size in
      let* out := run_array mem arr (snd r) t in
      Ok (fst r :: out)
  end.

Lemma run_array_list {A} (mem : nat -> nat -> A) ops : forall arr size l out,
  StackRep arr size l -> run_list l ops = Some out -> run_array mem arr size ops = Ok out.
Proof.
  induction ops as [|[a|] ops IH]; intros arr size l out H E; simpl in *.
  - congruence.
  - destruct (push_rep mem arr size l a H) as (arr1 & E1 & H1). rewrite E1. simpl.
    eapply IH; eauto.
  - destruct l as [|x l]; [discriminate|].
    destruct (run_list l ops) as [o|] eqn:Eo; [|discriminate]. simpl in E.
    inversion E; subst.
    destruct (pop_rep _ _ _ _ H) as (Ep & H1). rewrite Ep. simpl.
    rewrite (IH _ _ _ _ H1 Eo). reflexivity.
Qed.
