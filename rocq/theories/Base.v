(** Base layer: Python/numba execution conventions used by the model.

    - [res]: a computation either returns a value or stops with an exception.
    - [aget]/[aset]: array access with Python index semantics (negative
      indices wrap once); anything else is [Err EIndex].  In numba compiled
      array code such an access is undefined behaviour.
    - [lget]/[lset]: the same for Python / numba lists, whose accesses are
      bounds checked: [Err EList] is an IndexError.
    - loops: [for_range], [foldres], fuelled while loops elsewhere. *)
From Coq Require Export List ZArith Lia Bool Arith Permutation.
Export ListNotations.
Open Scope Z_scope.

Inductive err := EIndex | EList | EZeroDiv | EFuel | ERuntime | EValue.

Inductive res (A : Type) : Type :=
| Ok (a : A)
| Err (e : err).
Arguments Ok {A} a.
Arguments Err {A} e.

Definition bind {A B} (m : res A) (k : A -> res B) : res B :=
  match m with Ok a => k a | Err e => Err e end.

Notation "'let*' x ':=' m 'in' k" := (bind m (fun x => k))
  (at level 200, x binder, m at level 100, k at level 200,
   format "'[v' 'let*'  x  ':='  m  'in' '/' k ']'").

(** Python index normalisation: i in [0,n) as is, i in [-n,0) wraps. *)
Definition norm_idx (n : nat) (i : Z) : option nat :=
  if (0 <=? i) && (i <? Z.of_nat n) then Some (Z.to_nat i)
  else if (- Z.of_nat n <=? i) && (i <? 0) then Some (Z.to_nat (Z.of_nat n + i))
  else None.

Definition aget {A} (l : list A) (i : Z) : res A :=
  match norm_idx (length l) i with
  | Some k => match nth_error l k with Some a => Ok a | None => Err EIndex end
  | None => Err EIndex
  end.

Fixpoint list_set {A} (l : list A) (k : nat) (v : A) : list A :=
  match l, k with
  | [], _ => []
  | _ :: t, O => v :: t
  | h :: t, S k' => h :: list_set t k' v
  end.

Definition aset {A} (l : list A) (i : Z) (v : A) : res (list A) :=
  match norm_idx (length l) i with
  | Some k => Ok (list_set l k v)
  | None => Err EIndex
  end.

(** Access to a list object *)
Definition lget {A} (l : list A) (i : Z) : res A :=
  match aget l i with Ok a => Ok a | Err _ => Err EList end.
Definition lset {A} (l : list A) (i : Z) (v : A) : res (list A) :=
  match aset l i v with Ok a => Ok a | Err _ => Err EList end.

(** [for i in range(lo, hi): s = body i s] *)
Fixpoint for_loop {St} (n : nat) (i : Z) (body : Z -> St -> res St) (s : St) : res St :=
  match n with
  | O => Ok s
  | S n' => let* s' := body i s in for_loop n' (i + 1) body s'
  end.
Definition for_range {St} (lo hi : Z) (body : Z -> St -> res St) (s : St) : res St :=
  for_loop (Z.to_nat (hi - lo)) lo body s.

(** [for x in l: s = body x s] *)
Fixpoint foldres {A St} (l : list A) (body : A -> St -> res St) (s : St) : res St :=
  match l with
  | [] => Ok s
  | x :: t => let* s' := body x s in foldres t body s'
  end.

Fixpoint mapres {A B} (f : A -> res B) (l : list A) : res (list B) :=
  match l with
  | [] => Ok []
  | x :: t => let* y := f x in let* ys := mapres f t in Ok (y :: ys)
  end.

Definition zlen {A} (l : list A) : Z := Z.of_nat (length l).

(** [0; 1; ...; n-1] as integers: [np.arange(n)] *)
Definition iota (n : nat) : list Z := map Z.of_nat (seq 0 n).

(* ------------------------------------------------------------------ *)
(** * Lemmas *)

Lemma bind_ok {A B} (m : res A) (k : A -> res B) b :
  bind m k = Ok b -> exists a, m = Ok a /\ k a = Ok b.
Proof. destruct m; simpl; intros H; [eauto|discriminate]. Qed.

Lemma list_set_length {A} (l : list A) k v : length (list_set l k v) = length l.
Proof. revert k; induction l as [|h t IH]; intros [|k]; simpl; auto. Qed.

Lemma nth_error_list_set_eq {A} (l : list A) k v :
  (k < length l)%nat -> nth_error (list_set l k v) k = Some v.
Proof.
  revert k; induction l as [|h t IH]; intros [|k] H; simpl in *; try lia; auto.
  apply IH; lia.
Qed.

Lemma nth_error_list_set_neq {A} (l : list A) k j v :
  k <> j -> nth_error (list_set l k v) j = nth_error l j.
Proof.
  revert k j; induction l as [|h t IH]; intros [|k] [|j] H; simpl; auto; try congruence.
Qed.

Lemma norm_idx_nat n k : (k < n)%nat -> norm_idx n (Z.of_nat k) = Some k.
Proof.
  intros H. unfold norm_idx.
  destruct (0 <=? Z.of_nat k) eqn:E1, (Z.of_nat k <? Z.of_nat n) eqn:E2; simpl;
    try lia. now rewrite Nat2Z.id.
Qed.

Lemma norm_idx_pos n i : 0 <= i < Z.of_nat n -> norm_idx n i = Some (Z.to_nat i).
Proof.
  intros H. rewrite <- (Z2Nat.id i) at 1 by lia. apply norm_idx_nat. lia.
Qed.

Lemma norm_idx_bound n i k : norm_idx n i = Some k -> (k < n)%nat.
Proof.
  unfold norm_idx.
  destruct (0 <=? i) eqn:E1, (i <? Z.of_nat n) eqn:E2; simpl;
  destruct (- Z.of_nat n <=? i) eqn:E3, (i <? 0) eqn:E4; simpl;
    intros H; inversion H; lia.
Qed.

Lemma aget_nat {A} (l : list A) k a :
  nth_error l k = Some a -> aget l (Z.of_nat k) = Ok a.
Proof.
  intros H. unfold aget. rewrite norm_idx_nat, H; auto.
  apply nth_error_Some. congruence.
Qed.

Lemma aget_pos {A} (l : list A) i a :
  0 <= i -> nth_error l (Z.to_nat i) = Some a -> aget l i = Ok a.
Proof. intros Hi H. rewrite <- (Z2Nat.id i) by lia. now apply aget_nat. Qed.

Lemma aget_pos_inv {A} (l : list A) i a :
  0 <= i -> aget l i = Ok a -> nth_error l (Z.to_nat i) = Some a.
Proof.
  unfold aget, norm_idx. intros Hi H.
  destruct (0 <=? i) eqn:E1; [|lia]. simpl in H.
  destruct (i <? Z.of_nat (length l)) eqn:E2; simpl in H.
  - destruct (nth_error l (Z.to_nat i)); congruence.
  - destruct (i <? 0) eqn:E3; [lia|].
    rewrite andb_false_r in H. discriminate.
Qed.

Lemma aget_in {A} (l : list A) i a : aget l i = Ok a -> In a l.
Proof.
  unfold aget. destruct (norm_idx _ _) as [k|]; [|discriminate].
  destruct (nth_error l k) eqn:E; [|discriminate].
  intros H; inversion H; subst. eapply nth_error_In; eauto.
Qed.

Lemma aget_ok_pos {A} (l : list A) i :
  0 <= i < zlen l -> exists a, aget l i = Ok a /\ nth_error l (Z.to_nat i) = Some a.
Proof.
  unfold zlen. intros H.
  destruct (nth_error l (Z.to_nat i)) as [a|] eqn:E.
  - exists a; split; auto. apply aget_pos; auto; lia.
  - apply nth_error_None in E. lia.
Qed.

Lemma aset_nat {A} (l : list A) k v :
  (k < length l)%nat -> aset l (Z.of_nat k) v = Ok (list_set l k v).
Proof. intros H. unfold aset. now rewrite norm_idx_nat. Qed.

Lemma aset_pos {A} (l : list A) i v :
  0 <= i < zlen l -> aset l i v = Ok (list_set l (Z.to_nat i) v).
Proof. unfold zlen. intros H. unfold aset. now rewrite norm_idx_pos. Qed.

Lemma aset_length {A} (l l' : list A) i v : aset l i v = Ok l' -> length l' = length l.
Proof.
  unfold aset. destruct (norm_idx _ _); intros H; inversion H.
  apply list_set_length.
Qed.

(** OOB accesses are errors, so a successful access is in bounds. *)
Lemma aset_ok_inv {A} (l l' : list A) i v :
  0 <= i -> aset l i v = Ok l' -> i < zlen l /\ l' = list_set l (Z.to_nat i) v.
Proof.
  unfold aset, norm_idx, zlen. intros Hi H.
  destruct (0 <=? i) eqn:E1; [|lia]. simpl in H.
  destruct (i <? Z.of_nat (length l)) eqn:E2; simpl in H.
  - inversion H. split; auto. lia.
  - destruct (i <? 0) eqn:E3; [lia|]. rewrite andb_false_r in H. discriminate.
Qed.

Lemma lget_ok {A} (l : list A) i a : lget l i = Ok a <-> aget l i = Ok a.
Proof. unfold lget. destruct (aget l i); split; congruence. Qed.
Lemma lset_ok {A} (l l' : list A) i v : lset l i v = Ok l' <-> aset l i v = Ok l'.
Proof. unfold lset. destruct (aset l i v); split; congruence. Qed.

Lemma for_range_nil {St} lo hi (body : Z -> St -> res St) s :
  hi <= lo -> for_range lo hi body s = Ok s.
Proof. intros H. unfold for_range. now replace (Z.to_nat (hi - lo)) with O by lia. Qed.

Lemma for_range_cons {St} lo hi (body : Z -> St -> res St) s :
  lo < hi -> for_range lo hi body s =
             (let* s' := body lo s in for_range (lo + 1) hi body s').
Proof.
  intros H. unfold for_range.
  replace (Z.to_nat (hi - lo)) with (S (Z.to_nat (hi - (lo + 1)))) by lia.
  reflexivity.
Qed.

Lemma mapres_ok {A B} (f : A -> res B) (g : A -> B) l :
  (forall x, In x l -> f x = Ok (g x)) -> mapres f l = Ok (map g l).
Proof.
  induction l as [|x t IH]; simpl; intros H; auto.
  rewrite H by auto. simpl. rewrite IH by auto. reflexivity.
Qed.

Lemma mapres_ok_inv {A B} (f : A -> res B) l ys :
  mapres f l = Ok ys -> Forall2 (fun x y => f x = Ok y) l ys.
Proof.
  revert ys; induction l as [|x t IH]; simpl; intros ys H.
  - inversion H; constructor.
  - apply bind_ok in H as (y & Hy & H). apply bind_ok in H as (ys' & Hys & H).
    inversion H; subst. constructor; auto.
Qed.

Lemma mapres_length {A B} (f : A -> res B) l ys :
  mapres f l = Ok ys -> length ys = length l.
Proof. intros H. apply mapres_ok_inv in H. induction H; simpl; auto. Qed.

Lemma iota_length n : length (iota n) = n.
Proof. unfold iota. now rewrite map_length, seq_length. Qed.

Lemma iota_in n i : In i (iota n) <-> 0 <= i < Z.of_nat n.
Proof.
  unfold iota. rewrite in_map_iff. split.
  - intros (k & <- & H). apply in_seq in H. lia.
  - intros H. exists (Z.to_nat i). split; [lia|]. apply in_seq. lia.
Qed.

Lemma iota_nodup n : NoDup (iota n).
Proof. unfold iota. apply FinFun.Injective_map_NoDup; [intros a b; lia|apply seq_NoDup]. Qed.

Lemma iota_nth n k : (k < n)%nat -> nth_error (iota n) k = Some (Z.of_nat k).
Proof.
  intros H. unfold iota. rewrite nth_error_map.
  rewrite (nth_error_nth' _ 0%nat) by (rewrite seq_length; auto).
  rewrite seq_nth; auto.
Qed.

(** Inversion helper: split a successful chain of binds. *)
Ltac inv_bind H :=
  let a := fresh "v" in let H1 := fresh "Hb" in let H2 := fresh "Hk" in
  apply bind_ok in H; destruct H as (a & H1 & H2).

Lemma aget_last {A} (l : list A) v : aget (l ++ [v]) (-1) = Ok v.
Proof.
  unfold aget, norm_idx. rewrite app_length. cbn [length].
  change (0 <=? -1) with false. change (-1 <? 0) with true.
  replace (- Z.of_nat (length l + 1) <=? -1) with true by (symmetry; apply Z.leb_le; lia).
  cbn [andb].
  replace (Z.to_nat (Z.of_nat (length l + 1) + -1)) with (length l) by lia.
  rewrite nth_error_app2, Nat.sub_diag by lia. reflexivity.
Qed.
