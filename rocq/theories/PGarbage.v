(** Uninitialised memory is never read: the results of the query functions do
    not depend on the contents of np.empty arrays.  No assumption on the tree
    or the mesh is needed. *)
From Verif Require Import Base Num MUtils MGeometry MCreation MAlgorithms MQuery.

(** [l] and [l'] hold the same values in their first [k] places *)
Definition agree {A} (k : nat) (l l' : list A) : Prop := length l = length l' /\ firstn k l = firstn k l'.

Lemma agree_refl {A} k (l : list A) : agree k l l.
Proof. split; auto. Qed.
Lemma agree_0 {A} (l l' : list A) : length l = length l' -> agree 0 l l'.
Proof. split; auto. Qed.
Lemma agree_le {A} k j (l l' : list A) : (j <= k)%nat -> agree k l l' -> agree j l l'.
Proof.
  intros H (H1 & H2). split; auto.
  replace j with (Nat.min j k) by lia. rewrite <- !firstn_firstn. now rewrite H2.
Qed.
Lemma nth_error_firstn_lt {A} (l : list A) : forall k i, (i < k)%nat -> nth_error (firstn k l) i = nth_error l i.
Proof.
  induction l as [|x l IH]; intros [|k] [|i] H; simpl; auto; try lia. apply IH. lia.
Qed.
Lemma agree_nth {A} k i (l l' : list A) : agree k l l' -> (i < k)%nat -> nth_error l i = nth_error l' i.
Proof.
  intros (_ & H) Hi. rewrite <- (nth_error_firstn_lt l k i), <- (nth_error_firstn_lt l' k i) by auto. now rewrite H.
Qed.
Lemma agree_intro {A} k (l l' : list A) : length l = length l' ->
  (forall i, (i < k)%nat -> nth_error l i = nth_error l' i) -> agree k l l'.
Proof.
  revert l l'. induction k as [|k IH]; intros l l' Hl H; [now apply agree_0|].
  destruct l as [|x l], l' as [|x' l']; try discriminate; [apply agree_refl|].
  split; auto. cbn [firstn]. f_equal.
  - specialize (H O). cbn in H. assert (Some x = Some x') by (apply H; lia). congruence.
  - apply IH; [simpl in Hl; lia|]. intros i Hi. apply (H (S i)). lia.
Qed.
Lemma agree_aget {A} k i (l l' : list A) : agree k l l' -> 0 <= i < Z.of_nat k -> aget l i = aget l' i.
Proof.
  intros H Hi. unfold aget. rewrite <- (proj1 H). destruct (norm_idx (length l) i) as [j|] eqn:E; auto.
  assert (j = Z.to_nat i).
  { unfold norm_idx in E. destruct (0 <=? i) eqn:E1; [|lia].
    destruct (i <? Z.of_nat (length l)); simpl in E; [congruence|].
    destruct (i <? 0) eqn:E2; [lia|]. rewrite andb_false_r in E. discriminate. }
  subst j. rewrite (agree_nth k _ l l') by (auto; lia). auto.
Qed.
Lemma agree_set {A} k i (l l' : list A) v : agree k l l' -> (i <= k)%nat ->
  agree (Nat.max k (S i)) (list_set l i v) (list_set l' i v).
Proof.
  intros H Hi. apply agree_intro; [rewrite !list_set_length; apply H|].
  intros j Hj. destruct (Nat.eq_dec i j) as [<-|Hn].
  - destruct (lt_dec i (length l)) as [Hl|Hl].
    + rewrite !nth_error_list_set_eq; auto. now rewrite <- (proj1 H).
    + rewrite !(proj2 (nth_error_None _ _)); auto; rewrite list_set_length; rewrite <- ?(proj1 H); lia.
  - rewrite !nth_error_list_set_neq by auto. apply (agree_nth k); auto. lia.
Qed.
Lemma agree_all {A} k (l l' : list A) : agree k l l' -> (length l <= k)%nat -> l = l'.
Proof.
  intros (H1 & H2) H. rewrite !firstn_all2 in H2; auto. lia.
Qed.

(** ** Two runs *)
Definition rel {A B} (R : A -> B -> Prop) (x : res A) (y : res B) : Prop :=
  match x, y with Ok a, Ok b => R a b | Err e, Err e' => e = e' | _, _ => False end.

Lemma rel_eq {A} (x y : res A) : rel eq x y -> x = y.
Proof. destruct x, y; simpl; intros H; try contradiction; now subst. Qed.
Lemma rel_refl {A} (R : A -> A -> Prop) x : (forall a, R a a) -> rel R x x.
Proof. destruct x; simpl; auto. Qed.
Lemma rel_of_eq {A} (x y : res A) : x = y -> rel eq x y.
Proof. intros ->. now apply rel_refl. Qed.
Lemma rel_impl {A B} (R S : A -> B -> Prop) x y : (forall a b, R a b -> S a b) -> rel R x y -> rel S x y.
Proof. destruct x, y; simpl; auto. Qed.
Lemma rel_bind {A B A' B'} (R : A -> B -> Prop) (S : A' -> B' -> Prop) x y f g :
  rel R x y -> (forall a b, R a b -> rel S (f a) (g b)) -> rel S (bind x f) (bind y g).
Proof. destruct x, y; simpl; intros H1 H2; try contradiction; auto. Qed.
Lemma rel_bind_eq {A A' B'} (S : A' -> B' -> Prop) (x y : res A) f g :
  x = y -> (forall a, x = Ok a -> rel S (f a) (g a)) -> rel S (bind x f) (bind y g).
Proof. intros <- H. destruct x; simpl; auto. Qed.
Lemma rel_for {A B} (I : Z -> A -> B -> Prop) n : forall lo f g s s',
  (forall i s s', lo <= i < lo + Z.of_nat n -> I i s s' -> rel (I (i + 1)) (f i s) (g i s')) ->
  I lo s s' -> rel (I (lo + Z.of_nat n)) (for_loop n lo f s) (for_loop n lo g s').
Proof.
  induction n as [|n IH]; intros lo f g s s' H Hi.
  - cbn. now rewrite Z.add_0_r.
  - cbn [for_loop]. apply (rel_bind (I (lo + 1))); [apply H; auto; lia|]. intros a b Hab.
    replace (lo + Z.of_nat (S n)) with ((lo + 1) + Z.of_nat n) by lia. apply IH; auto.
    intros i t t' Hr Ht. apply H; auto. lia.
Qed.

Lemma rel_aset {A} k i (l l' : list A) v : agree k l l' -> 0 <= i -> (Z.to_nat i <= k)%nat ->
  rel (agree (Nat.max k (S (Z.to_nat i)))) (aset l i v) (aset l' i v).
Proof.
  intros H Hi Hk. unfold aset. rewrite <- (proj1 H). destruct (norm_idx (length l) i) as [j|] eqn:E; simpl; auto.
  assert (j = Z.to_nat i).
  { unfold norm_idx in E. destruct (0 <=? i) eqn:E1; [|lia].
    destruct (i <? Z.of_nat (length l)); simpl in E; [congruence|].
    destruct (i <? 0) eqn:E2; [lia|]. rewrite andb_false_r in E. discriminate. }
  subst j. now apply agree_set.
Qed.

Lemma np_empty_len {A} (mem : nat -> nat -> A) n : length (np_empty mem n) = n.
Proof. unfold np_empty. now rewrite map_length, seq_length. Qed.

Lemma agree_app {A} k (l l' t t' : list A) : agree k l l' -> (k <= length l)%nat -> length t = length t' ->
  agree k (l ++ t) (l' ++ t').
Proof.
  intros (H1 & H2) Hk Ht. split; [rewrite !app_length; lia|].
  rewrite !firstn_app. rewrite H2. replace (k - length l)%nat with O by lia.
  replace (k - length l')%nat with O by lia. reflexivity.
Qed.

Lemma grow_length {A} (mem : nat -> nat -> A) l : length (grow mem l) = (2 * length l)%nat.
Proof.
  unfold grow. rewrite app_length, skipn_length, np_empty_len. lia.
Qed.
Lemma agree_grow {A} k (mem mem' : nat -> nat -> A) l l' : agree k l l' -> (k <= length l)%nat ->
  agree k (grow mem l) (grow mem' l').
Proof.
  intros H Hk. unfold grow. apply agree_app; auto.
  rewrite !skipn_length, !np_empty_len, (proj1 H). auto.
Qed.

(** ** Stacks *)
Lemma rel_push {A} (mem mem' : nat -> nat -> A) l l' v size :
  0 <= size <= zlen l -> agree (Z.to_nat size) l l' ->
  rel (fun r r' => snd r = size + 1 /\ snd r' = size + 1 /\ size + 1 <= zlen (fst r) /\ agree (Z.to_nat (size + 1)) (fst r) (fst r'))
      (push mem l v size) (push mem' l' v size).
Proof.
  intros Hs H. unfold push. assert (El : zlen l' = zlen l) by (unfold zlen; now rewrite (proj1 H)). rewrite El.
  set (a := if zlen l <=? size then grow mem l else l). set (a' := if zlen l <=? size then grow mem' l' else l').
  assert (Ha : agree (Z.to_nat size) a a').
  { unfold a, a'. destruct (zlen l <=? size) eqn:E; auto. apply agree_grow; auto. unfold zlen in *. lia. }
  assert (Hr := rel_aset (Z.to_nat size) size a a' v Ha ltac:(lia) ltac:(lia)).
  destruct (aset a size v) as [b|] eqn:Eb, (aset a' size v) as [b'|]; simpl in *; auto.
  split; auto. split; auto. apply aset_ok_inv in Eb as (E1 & E2); [|lia].
  assert (zlen b = zlen a) by (subst b; unfold zlen; now rewrite list_set_length).
  split; [lia|]. eapply agree_le; [|exact Hr]. lia.
Qed.

Definition step_rel {St St' A} (R F : St -> St' -> Prop) (x : step St A) (y : step St' A) : Prop :=
  match x, y with
  | Next s l, Next s' l' => R s s' /\ l = l'
  | Return s, Return s' => F s s'
  | _, _ => False
  end.

Section Loop.
  Context {St St' A : Type}.
  Variables (mem mem' : nat -> nat -> A) (R F : St -> St' -> Prop).
  Variables (visit : A -> St -> res (step St A)) (visit' : A -> St' -> res (step St' A)).
  Hypothesis HRF : forall s s', R s s' -> F s s'.
  Hypothesis Hvisit : forall x s s', R s s' -> rel (step_rel R F) (visit x s) (visit' x s').

  Lemma rel_push_all l : forall a a' size, 0 <= size <= zlen a -> agree (Z.to_nat size) a a' ->
    rel (fun r r' => snd r = snd r' /\ 0 <= snd r <= zlen (fst r) /\ agree (Z.to_nat (snd r)) (fst r) (fst r'))
        (push_all mem a size l) (push_all mem' a' size l).
  Proof.
    induction l as [|x l IH]; intros a a' size Hs Ha.
    - simpl. auto.
    - cbn [push_all]. eapply rel_bind; [apply (rel_push mem mem'); eauto|].
      intros r r' (E1 & E2 & E3 & E4). rewrite E1, E2. apply IH; auto. lia.
  Qed.

  Lemma rel_stack_loop fuel : forall a a' size s s', size <= zlen a -> agree (Z.to_nat size) a a' -> R s s' ->
    rel F (stack_loop mem visit fuel a size s) (stack_loop mem' visit' fuel a' size s').
  Proof.
    induction fuel as [|fuel IH]; intros a a' size s s' Hs Ha HR; cbn [stack_loop];
      (destruct (0 <? size) eqn:E0; [|apply HRF; exact HR]); [simpl; auto|].
    unfold pop. rewrite <- (agree_aget (Z.to_nat size) (size - 1) a a') by (auto; lia).
    destruct (aget a (size - 1)) as [v|e]; cbn [bind fst snd]; [|simpl; auto].
    eapply rel_bind; [apply Hvisit; eauto|].
    intros x y Hxy. destruct x as [t l|t], y as [t' l'|t']; simpl in Hxy; try contradiction; auto.
    destruct Hxy as (Ht & <-).
    eapply rel_bind; [apply (rel_push_all l a a' (size - 1)); [lia|]|].
    - eapply agree_le; [|exact Ha]. lia.
    - intros r r' (E1 & E2 & E3). rewrite <- E1. apply IH; auto. lia.
  Qed.
End Loop.

Section Queries.
  Context {T : Type} {NT : Num T}.
  Local Open Scope num_scope.
  Notation point := (point T).
  Notation box := (box T).
  Notation celltree := (celltree T).
  Variables g g' : garbage T.

  (** ** Polygon buffers *)
  Lemma copy_vertices_into_any (vs : list point) face out out' : length out = length out' ->
    copy_vertices_into vs face out = copy_vertices_into vs face out'.
  Proof.
    intros Hl. apply rel_eq. unfold copy_vertices_into, for_range.
    eapply rel_bind.
    - apply (rel_for (fun i => agree (Z.to_nat i))); [|now apply agree_0].
      intros i s s' Hi Ha. apply rel_bind_eq; auto. intros f _. apply rel_bind_eq; auto. intros v _.
      eapply rel_impl; [|apply (rel_aset (Z.to_nat i)); auto; lia].
      intros a b. apply agree_le. lia.
    - intros a b Hab. simpl.
      rewrite Z.sub_0_r in Hab. destruct Hab as (_ & H).
      replace (Z.to_nat (0 + Z.of_nat (Z.to_nat (Z.of_nat (polygon_length face))))) with (polygon_length face) in H by lia.
      exact H.
  Qed.
  Lemma alloc_polygon_length (h : garbage T) : length (allocate_polygon h) = MAX_N_VERTEX.
  Proof. apply np_empty_len. Qed.
  Lemma copy_vertices_any (vs : list point) face : copy_vertices g vs face = copy_vertices g' vs face.
  Proof. apply copy_vertices_into_any. now rewrite !alloc_polygon_length. Qed.

  Lemma rel_traverse {St St'} (R F : St -> St' -> Prop) (tree : celltree) visit visit' s s' :
    (forall s s', R s s' -> F s s') ->
    (forall x s s', R s s' -> rel (step_rel R F) (visit x s) (visit' x s')) -> R s s' ->
    rel F (traverse g tree visit s) (traverse g' tree visit' s').
  Proof.
    intros HRF Hv HR. unfold traverse, allocate_stack.
    rewrite !aset_pos by (unfold zlen; rewrite np_empty_len; unfold INITIAL_STACK_LENGTH; lia). cbn [bind].
    apply (rel_stack_loop _ _ R F); auto.
    - unfold zlen. rewrite list_set_length, np_empty_len. unfold INITIAL_STACK_LENGTH. lia.
    - apply (agree_set 0 0); auto. apply agree_0. now rewrite !np_empty_len.
  Qed.

  Lemma first_hit_ext (test test' : Z -> res bool) l : (forall i, test i = test' i) -> first_hit test l = first_hit test' l.
  Proof.
    intros H. induction l as [|i l IH]; simpl; auto. rewrite H. destruct (test' i) as [[]|]; simpl; auto.
  Qed.

  (** ** Points *)
  Lemma point_query_any (tree : celltree) (test test' : Z -> res bool) p st : (forall i, test i = test' i) ->
    traverse g tree (point_visit tree test p) st = traverse g' tree (point_visit tree test' p) st.
  Proof.
    intros H. apply rel_eq. apply (rel_traverse eq eq); auto. intros x s s' <-.
    unfold point_visit. apply rel_bind_eq; auto. intros nd _.
    destruct (nchild nd =? -1)%Z; [|simpl; auto].
    apply rel_bind_eq; auto. intros items _. rewrite (first_hit_ext test test' items H).
    apply rel_bind_eq; auto. intros [i|] _; simpl; auto.
  Qed.

  Lemma face_test_any (tree : celltree) p tolerance i : face_test g tree p tolerance i = face_test g' tree p tolerance i.
  Proof.
    unfold face_test. destruct (aget (elements tree) i) as [face|]; simpl; auto.
    now rewrite (copy_vertices_into_any _ face (allocate_polygon g) (allocate_polygon g')) by now rewrite !alloc_polygon_length.
  Qed.
  Lemma edge_test_any (tree : celltree) p tolerance i : edge_test g tree p tolerance i = edge_test g' tree p tolerance i.
  Proof.
    unfold edge_test. destruct (aget (elements tree) i) as [face|]; simpl; auto.
    now rewrite (copy_vertices_into_any _ face (allocate_polygon g) (allocate_polygon g')) by now rewrite !alloc_polygon_length.
  Qed.
  Theorem locate_point_any p (tree : celltree) tolerance : locate_point g p tree tolerance = locate_point g' p tree tolerance.
  Proof. apply point_query_any. intros i. apply face_test_any. Qed.
  Theorem locate_point_on_edge_any p (tree : celltree) tolerance :
    locate_point_on_edge g p tree tolerance = locate_point_on_edge g' p tree tolerance.
  Proof. apply point_query_any. intros i. apply edge_test_any. Qed.

  (** ** Separating axes *)
  Theorem polygons_intersect_one_any (va vb : list point) fa fb ij :
    polygons_intersect_one g va vb fa fb ij = polygons_intersect_one g' va vb fa fb ij.
  Proof.
    unfold polygons_intersect_one. destruct (aget fa (fst ij)) as [a|]; simpl; auto.
    destruct (aget fb (snd ij)) as [b|]; simpl; auto. now rewrite !copy_vertices_any.
  Qed.

  (** ** Sutherland-Hodgman *)
  Lemma rel_copy {A} (src src' dst dst' : list A) n :
    agree (Z.to_nat n) src src' -> length dst = length dst' ->
    rel (agree (Z.to_nat n)) (copy src dst n) (copy src' dst' n).
  Proof.
    intros Hs Hd. unfold copy, for_range. rewrite Z.sub_0_r.
    eapply rel_impl; [|apply (rel_for (fun i => agree (Z.to_nat i))); [|now apply agree_0]].
    - cbv beta. intros a b. apply agree_le. lia.
    - intros i s s' Hi Ha. rewrite (agree_aget (Z.to_nat n) i src src') by (auto; lia).
      apply rel_bind_eq; auto. intros v _.
      eapply rel_impl; [|apply (rel_aset (Z.to_nat i)); auto; lia]. intros a b. apply agree_le. lia.
  Qed.
  Lemma rel_push_point (out out' : list point) n p : (0 <= n)%Z -> agree (Z.to_nat n) out out' ->
    rel (fun o o' => snd o = snd o' /\ (0 <= snd o)%Z /\ agree (Z.to_nat (snd o)) (fst o) (fst o'))
        (push_point out n p) (push_point out' n p).
  Proof.
    intros Hn H. unfold push_point.
    eapply rel_bind; [apply (rel_aset (Z.to_nat n)); auto; lia|].
    intros a b Hab. simpl. split; auto. split; [lia|]. eapply agree_le; [|exact Hab]. lia.
  Qed.

  Definition clip_same (x x' : list point * Z * point * bool) : Prop :=
    let '(out, n, a, ai) := x in let '(out', n', a', ai') := x' in
    n = n' /\ (0 <= n)%Z /\ agree (Z.to_nat n) out out' /\ a = a' /\ ai = ai'.
  Lemma rel_clip_edge r U N b x x' : clip_same x x' ->
    rel clip_same (clip_edge r U N b x) (clip_edge r U N b x').
  Proof.
    destruct x as [[[out n] a] ai], x' as [[[out' n'] a'] ai']. intros (<- & Hn & Ho & <- & <-).
    unfold clip_edge.
    destruct (_ && _); [simpl; auto 6|].
    destruct (inside b r U).
    - eapply rel_bind.
      + instantiate (1 := fun o o' => snd o = snd o' /\ (0 <= snd o)%Z /\ agree (Z.to_nat (snd o)) (fst o) (fst o')).
        destruct ai; simpl; auto. apply rel_bind_eq; auto. intros [p|] _; simpl; auto.
        now apply rel_push_point.
      + intros o o' (E1 & E2 & E3). rewrite <- E1.
        eapply rel_bind; [apply rel_push_point; eauto|]. intros q q' (F1 & F2 & F3). simpl. auto 6.
    - destruct ai; [|simpl; auto 6].
      apply rel_bind_eq; auto. intros [p|] _; (eapply rel_bind; [apply rel_push_point; eauto|]);
        intros q q' (F1 & F2 & F3); simpl; auto 6.
  Qed.

  Lemma copy_len {A} (src dst d : list A) n : copy src dst n = Ok d -> length d = length dst.
  Proof.
    unfold copy, for_range. generalize (Z.to_nat (n - 0)). intros m. generalize 0%Z. revert dst.
    induction m as [|m IH]; intros dst i; cbn [for_loop]; [intros E; inversion E; auto|].
    destruct (aget src i) as [v|]; simpl; [|discriminate].
    destruct (aset dst i v) as [dst'|] eqn:E; simpl; [|discriminate].
    intros H. rewrite (IH _ _ H). eapply aset_length; eauto.
  Qed.

  Lemma rel_clip_by_edge r U subject subject' out out' n : (0 <= n)%Z ->
    length subject = length subject' -> agree (Z.to_nat n) out out' ->
    rel (fun x x' => length (fst (fst x)) = length (fst (fst x')) /\ snd x = snd x' /\ (0 <= snd x)%Z
           /\ agree (Z.to_nat (snd x)) (snd (fst x)) (snd (fst x')))
        (clip_by_edge r U subject out n) (clip_by_edge r U subject' out' n).
  Proof.
    intros Hn Hs Ho. unfold clip_by_edge.
    destruct (copy out subject n) as [s|e] eqn:E1, (copy out' subject' n) as [s'|e'] eqn:E2;
      pose proof (rel_copy out out' subject subject' n Ho Hs) as Hc; rewrite E1, E2 in Hc; simpl in Hc;
      try contradiction; [|simpl; auto].
    cbn [bind]. pose proof (copy_len _ _ _ _ E1) as L1. pose proof (copy_len _ _ _ _ E2) as L2.
    destruct (Z.eq_dec n 0) as [->|Hn0].
    - (* an empty polygon: whatever is read is not used *)
      assert (Hl : length s = length s') by congruence.
      unfold aget. rewrite <- Hl. destruct (norm_idx (length s) (0 - 1)) as [j|] eqn:Ej; [|simpl; auto].
      pose proof (norm_idx_bound _ _ _ Ej) as Hj.
      destruct (nth_error s j) as [v|] eqn:Ev; [|apply nth_error_None in Ev; lia].
      destruct (nth_error s' j) as [v'|] eqn:Ev'; [|apply nth_error_None in Ev'; lia].
      cbn [bind]. rewrite !for_range_nil by lia. cbn [bind rel fst snd].
      repeat split; auto; try lia; apply Ho.
    - rewrite (agree_aget (Z.to_nat n) (n - 1) s s') by (auto; lia).
      apply rel_bind_eq; auto. intros a _.
      eapply rel_bind.
      + unfold for_range. apply (rel_for (fun _ => clip_same)).
        * intros i x x' Hi Hx. rewrite (agree_aget (Z.to_nat n) i s s') by (auto; lia).
          apply rel_bind_eq; auto. intros b _. now apply rel_clip_edge.
        * simpl. split; auto. split; [lia|]. split; auto. apply agree_0. apply Ho.
      + intros [[[o m] q] qi] [[[o' m'] q'] qi'] (<- & H1 & H2 & _ & _). simpl.
        split; [congruence|auto].
  Qed.

  Lemma clip_loop_any (l : list point) : forall r subject subject' out out' n, (0 <= n)%Z ->
    length subject = length subject' -> agree (Z.to_nat n) out out' ->
    clip_loop r l subject out n = clip_loop r l subject' out' n.
  Proof.
    induction l as [|s l IH]; intros r subject subject' out out' n Hn Hs Ho; cbn [clip_loop].
    - now rewrite (proj2 Ho).
    - destruct (_ && _); [apply IH; auto|]. apply rel_eq.
      eapply rel_bind; [apply rel_clip_by_edge; eauto|].
      intros [[s1 o1] n1] [[s2 o2] n2] (E1 & E2 & E3 & E4); simpl in *. subst n2.
      destruct (n1 <? 3)%Z; [simpl; auto|]. apply rel_of_eq. apply IH; auto.
  Qed.
  Theorem clip_area_any_garbage (polygon clipper : list point) :
    polygon_polygon_clip_area g polygon clipper = polygon_polygon_clip_area g' polygon clipper.
  Proof.
    apply rel_eq. unfold polygon_polygon_clip_area.
    assert (Hl : length (allocate_clip_polygon g) = length (allocate_clip_polygon g')).
    { unfold allocate_clip_polygon. now rewrite !np_empty_len. }
    eapply rel_bind; [apply rel_copy; [apply agree_refl|exact Hl]|].
    intros o o' Ho. apply rel_bind_eq; auto. intros r _. apply rel_of_eq.
    apply clip_loop_any; auto. unfold zlen. lia.
  Qed.
  Theorem area_of_intersection_one_any (va vb : list point) fa fb ij :
    area_of_intersection_one g va vb fa fb ij = area_of_intersection_one g' va vb fa fb ij.
  Proof.
    unfold area_of_intersection_one. destruct (aget fa (fst ij)) as [a|]; simpl; auto.
    destruct (aget fb (snd ij)) as [b|]; simpl; auto. rewrite !copy_vertices_any.
    destruct (copy_vertices g' va a) as [a'|]; simpl; auto.
    destruct (copy_vertices g' vb b) as [b'|]; simpl; auto. apply clip_area_any_garbage.
  Qed.
  Theorem box_area_one_any (boxes : list box) (vs : list point) fs ij :
    box_area_one g boxes vs fs ij = box_area_one g' boxes vs fs ij.
  Proof.
    unfold box_area_one. destruct (aget boxes (fst ij)) as [a|]; simpl; auto.
    destruct (aget fs (snd ij)) as [b|]; simpl; auto. rewrite !copy_vertices_any.
    destruct (copy_vertices g' vs b) as [b'|]; simpl; auto. apply clip_area_any_garbage.
  Qed.

  (** ** Result buffers *)
  Definition buf_same {R} (rows rows' : list R) (size : Z) : Prop :=
    (0 <= size <= zlen rows)%Z /\ agree (Z.to_nat size) rows rows'.
  Definition running {R} (s0 : Z) (st st' : collect R) : Prop :=
    c_size st = c_size st' /\ c_count st = c_count st' /\ buf_same (c_rows st) (c_rows st') (c_size st)
    /\ (0 <= c_count st)%Z /\ c_size st = (s0 + c_count st)%Z.
  Definition ended {R} (s0 : Z) (st st' : collect R) : Prop :=
    c_size st = c_size st' /\ c_count st = c_count st' /\ buf_same (c_rows st) (c_rows st') (c_size st)
    /\ (((0 <= c_count st)%Z /\ c_size st = (s0 + c_count st)%Z) \/ (c_count st = (-1)%Z /\ (s0 <= c_size st)%Z)).
  Definition sum_rel {A B A' B'} (L : A -> A' -> Prop) (R : B -> B' -> Prop) (x : A + B) (y : A' + B') : Prop :=
    match x, y with inl a, inl a' => L a a' | inr b, inr b' => R b b' | _, _ => False end.

  Lemma running_ended {R} s0 (st st' : collect R) : running s0 st st' -> ended s0 st st'.
  Proof. intros (H1 & H2 & H3 & H4 & H5). repeat (split; auto); apply H3. Qed.

  Lemma rel_emit {R} s0 (row : R) st st' : (0 <= s0)%Z -> running s0 st st' ->
    rel (sum_rel (ended s0) (running s0)) (emit row st) (emit row st').
  Proof.
    intros H0 (H1 & H2 & (H3 & H4) & H5 & H6). unfold emit.
    assert (El : zlen (c_rows st') = zlen (c_rows st)) by (unfold zlen; now rewrite (proj1 H4)).
    rewrite El, <- H1, <- H2. destruct (zlen (c_rows st) <=? c_size st)%Z eqn:E.
    - simpl. unfold ended, buf_same; simpl. split; auto. split; auto. split; auto. right. lia.
    - destruct (aset (c_rows st) (c_size st) row) as [a|] eqn:Ea, (aset (c_rows st') (c_size st) row) as [b|] eqn:Eb;
        pose proof (rel_aset _ (c_size st) _ _ row H4 ltac:(lia) ltac:(lia)) as Hr; rewrite Ea, Eb in Hr; simpl in Hr;
        try contradiction; [|simpl; auto].
      simpl. unfold running, buf_same; simpl. split; auto. split; auto.
      apply aset_length in Ea. unfold zlen in *. split; [split; [lia|]|lia].
      eapply agree_le; [|exact Hr]. lia.
  Qed.

  Lemma rel_emit_hits {R} s0 (hit hit' : Z -> res (option R)) l : (0 <= s0)%Z -> (forall i, hit i = hit' i) ->
    forall st st', running s0 st st' ->
    rel (sum_rel (ended s0) (running s0)) (emit_hits hit l st) (emit_hits hit' l st').
  Proof.
    intros H0 Hh. induction l as [|i l IH]; intros st st' H; cbn [emit_hits]; [exact H|].
    apply rel_bind_eq; [apply Hh|]. intros [row|] _; [|apply IH; auto].
    eapply rel_bind; [apply (rel_emit s0); eauto|].
    intros [a|a] [b|b] Hab; simpl in Hab; try contradiction; [exact Hab|apply IH; auto].
  Qed.

  Lemma rel_collect {R} (tree : celltree) s0 (hit hit' : Z -> res (option R)) children rows rows' :
    (forall i, hit i = hit' i) -> buf_same rows rows' s0 ->
    rel (ended s0) (traverse g tree (collect_visit tree hit children) (Collect rows s0 0%Z))
                   (traverse g' tree (collect_visit tree hit' children) (Collect rows' s0 0%Z)).
  Proof.
    intros Hh Hb. assert (H0 : (0 <= s0)%Z) by apply Hb.
    apply (rel_traverse (running s0) (ended s0)).
    - intros s s'. apply running_ended.
    - intros x st st' H. unfold collect_visit. apply rel_bind_eq; auto. intros nd _.
      destruct (nchild nd =? -1)%Z.
      + apply rel_bind_eq; auto. intros items _.
        eapply rel_bind; [apply (rel_emit_hits s0 hit hit'); eauto|].
        intros [a|a] [b|b] Hab; simpl in Hab |- *; try contradiction; auto.
      + apply rel_bind_eq; auto. intros cs _. simpl. auto.
    - unfold running. simpl. split; auto. split; auto. split; auto. lia.
  Qed.

  Definition part_same {R} (x x' : list R * Z) : Prop := snd x = snd x' /\ buf_same (fst x) (fst x') (snd x).

  Section Retry.
    Context {R : Type}.
    Variables (mem mem' : nat -> nat -> R).
    Variables (run run' : list R -> Z -> res (collect R)).
    Hypothesis Hrun : forall rows rows' s0, buf_same rows rows' s0 -> rel (ended s0) (run rows s0) (run' rows' s0).

    Lemma rel_retry fuel : forall rows rows' total, buf_same rows rows' total ->
      rel (fun x x' => x = (fst (fst x), total + snd x, snd x)%Z /\ snd (fst x) = snd (fst x') /\ snd x = snd x'
             /\ (0 <= snd x)%Z /\ buf_same (fst (fst x)) (fst (fst x')) (snd (fst x)))
          (retry mem run fuel rows total total) (retry mem' run' fuel rows' total total).
    Proof.
      induction fuel as [|fuel IH]; intros rows rows' total Hb; [simpl; auto|]. cbn [retry].
      eapply rel_bind; [apply Hrun; eauto|].
      intros st st' (H1 & H2 & H3 & H4). rewrite <- H2.
      destruct (c_count st =? -1)%Z eqn:E; cbn [negb].
      - apply IH. destruct H4 as [H4|(H4 & H5)]; [lia|]. destruct H3 as (H3 & H6), Hb as (Hb & _).
        unfold zlen in *. split.
        + unfold zlen. rewrite grow_length. lia.
        + apply agree_grow; [|lia]. eapply agree_le; [|exact H6]. lia.
      - destruct H4 as [(H4 & H5)|(H4 & _)]; [|lia]. simpl. rewrite <- H5. repeat (split; auto); apply H3.
    Qed.
  End Retry.

  Lemma rel_query_loop {Q R} (mem mem' : nat -> nat -> R) (run run' : Q -> Z -> list R -> Z -> res (collect R)) fuel :
    (forall q index rows rows' s0, buf_same rows rows' s0 -> rel (ended s0) (run q index rows s0) (run' q index rows' s0)) ->
    forall l index rows rows' total, buf_same rows rows' total ->
    rel part_same (query_loop mem run fuel l index rows total total) (query_loop mem' run' fuel l index rows' total total).
  Proof.
    intros Hrun. induction l as [|q l IH]; intros index rows rows' total Hb; cbn [query_loop].
    - split; auto.
    - eapply rel_bind; [apply (rel_retry mem mem' (run q index) (run' q index)); eauto|].
      intros [[a sz] c] [[b sz'] c'] (E1 & E2 & E3 & E4 & E5). simpl in *. inversion E1; subst. apply IH; auto.
  Qed.

  Lemma locate_boxes_helper_same (boxes : list box) (tree : celltree) offset :
    rel part_same (locate_boxes_helper g boxes tree offset) (locate_boxes_helper g' boxes tree offset).
  Proof.
    unfold locate_boxes_helper. apply rel_query_loop.
    - intros bx index rows rows' s0 Hb. unfold locate_box. destruct (negb _).
      + simpl. apply running_ended. unfold running; simpl. split; auto. split; auto. split; auto. lia.
      + apply rel_collect; auto.
    - split; [unfold zlen; lia|]. apply agree_0. now rewrite !np_empty_len.
  Qed.

  Lemma locate_edges_helper_same csfuel f f' (edges : list (point * point)) (tree : celltree) offset :
    (forall i a b, f i a b = f' i a b) ->
    rel part_same (locate_edges_helper g csfuel f edges tree offset) (locate_edges_helper g' csfuel f' edges tree offset).
  Proof.
    intros Hf. unfold locate_edges_helper. apply rel_query_loop.
    - intros [a b] index rows rows' s0 Hb. unfold locate_edge. apply rel_bind_eq; auto. intros [c|] _.
      + apply rel_collect; auto. intros i. unfold edge_hit. now rewrite Hf.
      + simpl. apply running_ended. unfold running; simpl. split; auto. split; auto. split; auto. lia.
    - split; [unfold zlen; lia|]. apply agree_0. now rewrite !np_empty_len.
  Qed.

  Lemma edge_face_any csfuel (tree : celltree) i a b :
    compute_edge_face_intersect g csfuel tree i a b = compute_edge_face_intersect g' csfuel tree i a b.
  Proof.
    unfold compute_edge_face_intersect. destruct (aget (bb_coords tree) i) as [bx|]; simpl; auto.
    destruct (cohen_sutherland_line_box_clip csfuel a b bx) as [[c|]|]; simpl; auto.
    destruct (aget (elements tree) i) as [face|]; simpl; auto.
    now rewrite (copy_vertices_into_any _ face (allocate_polygon g) (allocate_polygon g')) by now rewrite !alloc_polygon_length.
  Qed.

  Lemma sumZ_cons x l : sumZ (x :: l) = (x + sumZ l)%Z.
  Proof.
    unfold sumZ. simpl. assert (G : forall l a, fold_left Z.add l a = (a + fold_left Z.add l 0)%Z).
    { clear. induction l as [|y l IH]; intros a; simpl; [lia|]. rewrite IH, (IH y). lia. }
    apply G.
  Qed.

  Lemma rel_concat_loop {R} (parts parts' : list (list R * Z)) : Forall2 part_same parts parts' ->
    forall start out out', (0 <= start)%Z -> agree (Z.to_nat start) out out' ->
    rel (agree (Z.to_nat (start + sumZ (map snd parts)))) (concat_loop parts start out) (concat_loop parts' start out').
  Proof.
    induction 1 as [|[rows size] [rows' size'] ps ps' Hx _ IH]; intros start out out' Hs Ho.
    - simpl. now rewrite Z.add_0_r.
    - destruct Hx as (E & (Hsz & Hag)). cbn [fst snd] in *. subst size'. cbn [concat_loop].
      assert (Esl : slice rows 0 size = slice rows' 0 size).
      { unfold slice. cbn [skipn Z.to_nat]. rewrite Z.sub_0_r. apply Hag. }
      rewrite <- Esl.
      assert (Lsl : length (slice rows 0 size) = Z.to_nat size).
      { unfold slice. cbn [skipn Z.to_nat]. rewrite Z.sub_0_r, firstn_length. unfold zlen in Hsz. lia. }
      unfold slice_assign. assert (El : zlen out' = zlen out) by (unfold zlen; now rewrite (proj1 Ho)). rewrite El.
      destruct (_ =? _)%Z eqn:E0; [|simpl; auto]. cbn [bind].
      cbn [map snd]. rewrite sumZ_cons, Z.add_assoc. apply IH; [lia|].
      assert (Hle : (Z.to_nat start <= length out)%nat) by (unfold zlen in E0; lia).
      split; [rewrite !app_length, !firstn_length, !skipn_length, (proj1 Ho); auto|].
      rewrite (proj2 Ho), !app_assoc, !firstn_app.
      rewrite !app_length, firstn_length, Lsl, <- (proj1 Ho).
      replace (Z.to_nat (start + size) - (Nat.min (Z.to_nat start) (length out) + Z.to_nat size))%nat with O by lia.
      reflexivity.
  Qed.

  Theorem concatenate_same {R} (mem mem' : nat -> nat -> R) parts parts' : Forall2 part_same parts parts' ->
    concatenate mem parts = concatenate mem' parts'.
  Proof.
    intros H. apply rel_eq. unfold concatenate.
    assert (Es : sumZ (map snd parts') = sumZ (map snd parts)).
    { f_equal. induction H as [|x y l l' Hxy _ IH]; simpl; auto. f_equal; auto. symmetry. apply Hxy. }
    rewrite Es.
    pose proof (rel_concat_loop parts parts' H 0%Z (np_empty mem (Z.to_nat (sumZ (map snd parts))))
      (np_empty mem' (Z.to_nat (sumZ (map snd parts)))) ltac:(lia) ltac:(apply agree_0; now rewrite !np_empty_len)) as Hr.
    destruct (concat_loop parts 0%Z (np_empty mem (Z.to_nat (sumZ (map snd parts))))) as [o|e] eqn:E1,
             (concat_loop parts' 0%Z (np_empty mem' (Z.to_nat (sumZ (map snd parts))))) as [o'|e'] eqn:E2;
      simpl in *; auto.
    eapply agree_all; [exact Hr|].
    assert (G : forall (ps : list (list R * Z)) s (a b : list R), (0 <= s)%Z -> Forall (fun p => 0 <= snd p <= zlen (fst p))%Z ps -> concat_loop ps s a = Ok b -> length b = length a).
    { clear. induction ps as [|[rows size] ps IH]; intros s a b Hs HF Hc; cbn [concat_loop] in Hc; [inversion Hc; auto|].
      unfold slice_assign in Hc. destruct (_ =? _)%Z eqn:E0; [|discriminate]. cbn [bind] in Hc.
      pose proof (Forall_inv HF) as Hp. cbn [fst snd] in Hp.
      assert (Hs' : (0 <= s + size)%Z) by lia. rewrite (IH _ _ _ Hs' (Forall_inv_tail HF) Hc).
      rewrite !app_length, firstn_length, skipn_length. unfold zlen in E0. lia. }
    assert (HF : Forall (fun p => 0 <= snd p <= zlen (fst p))%Z parts).
    { clear - H. induction H as [|x y l l' Hxy _ IH]; constructor; auto. apply Hxy. }
    rewrite (G _ _ _ _ (Z.le_refl 0) HF E1).
    rewrite np_empty_len. simpl. lia.
  Qed.

  (** ** Wachspress *)
  Theorem wachspress_one_any n faces (vs : list point) tolerance pf :
    barycentric_wachspress_one g n faces vs tolerance pf = barycentric_wachspress_one g' n faces vs tolerance pf.
  Proof.
    unfold barycentric_wachspress_one. destruct pf as [p f]. destruct (f =? -1)%Z; auto.
    destruct (aget faces f) as [face|]; simpl; auto. now rewrite copy_vertices_any.
  Qed.
End Queries.
