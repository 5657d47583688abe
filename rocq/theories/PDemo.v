(** demo.py: closing polygons and listing the edges of a mesh. *)
From Coq Require Import Sorted.
From Verif Require Import Base MDemo.

(** A row of the connectivity: node numbers, then fill values *)
Definition padded (fill : Z) (m : nat) (row ns : list Z) : Prop :=
  row = ns ++ repeat fill (m - length ns) /\ ns <> [] /\ ~ In fill ns /\ (length ns <= m)%nat.

(** [v] follows [u] in the cycle [ns] *)
Definition side (ns : list Z) (u v : Z) : Prop :=
  exists k, nth_error ns k = Some u /\ nth_error ns (S k mod length ns) = Some v.

Definition close_row (m : nat) (ns : list Z) : list Z := ns ++ repeat (hd 0 ns) (S m - length ns).

Lemma mask_app a b ma mb va vb ra rb : length a = length ma -> mask_assign a ma va = Ok ra -> mask_assign b mb vb = Ok rb ->
  mask_assign (a ++ b) (ma ++ mb) (va ++ vb) = Ok (ra ++ rb).
Proof.
  revert ma va ra. induction a as [|x a IH]; intros [|m ma] va ra L E F; try discriminate.
  - cbn in E. destruct va; [|discriminate]. inversion E. exact F.
  - cbn in *. destruct m.
    + destruct va as [|v va]; [discriminate|]. destruct (mask_assign a ma va) as [r|] eqn:Er; [|discriminate]. cbn in E. inversion E.
      cbn. rewrite (IH ma va r); auto.
    + destruct (mask_assign a ma va) as [r|] eqn:Er; [|discriminate]. cbn in E. inversion E. cbn. rewrite (IH ma va r); auto.
Qed.

Lemma mask_keep fill ns : ~ In fill ns -> mask_assign ns (map (fun x => x =? fill) ns) [] = Ok ns.
Proof.
  induction ns as [|x ns IH]; intros H; cbn; auto. destruct (x =? fill) eqn:E.
  - exfalso. apply H. left. lia.
  - rewrite IH; auto. intros Hi. apply H. now right.
Qed.

Lemma mask_fill fill v k : mask_assign (repeat fill k) (map (fun x => x =? fill) (repeat fill k)) (repeat v k) = Ok (repeat v k).
Proof. induction k; cbn; auto. rewrite Z.eqb_refl, IHk. reflexivity. Qed.

Lemma count_app a b : count_true (a ++ b) = (count_true a + count_true b)%nat.
Proof. unfold count_true. now rewrite filter_app, app_length. Qed.
Lemma count_none fill ns : ~ In fill ns -> count_true (map (fun x => x =? fill) ns) = 0%nat.
Proof.
  induction ns as [|x ns IH]; intros H; auto. unfold count_true in *. cbn. destruct (x =? fill) eqn:E.
  - exfalso. apply H. left. lia.
  - apply IH. intros Hi. apply H. now right.
Qed.
Lemma count_all fill k : count_true (map (fun x => x =? fill) (repeat fill k)) = k.
Proof. induction k; auto. unfold count_true in *. cbn. rewrite Z.eqb_refl. cbn. now rewrite IHk. Qed.

Lemma close_row_length m ns : (length ns <= m)%nat -> length (close_row m ns) = S m.
Proof. intros H. unfold close_row. rewrite app_length, repeat_length. lia. Qed.

Lemma repeat_snoc {A} (x : A) k : repeat x k ++ [x] = repeat x (S k).
Proof. induction k; cbn; auto. now f_equal. Qed.

Lemma rows_concat m rows : Forall (fun r => length r = m) rows -> rows_of (length rows) m (concat rows) = rows.
Proof.
  induction 1 as [|r rows Hr H IH]; auto. cbn [length concat rows_of].
  rewrite firstn_app, <- Hr, firstn_all, Nat.sub_diag, firstn_O, app_nil_r. f_equal.
  rewrite skipn_app, skipn_all, Nat.sub_diag. cbn. rewrite Hr. exact IH.
Qed.

Lemma mapres_ok {A B} (f : A -> res B) l l' : Forall2 (fun x y => f x = Ok y) l l' -> mapres f l = Ok l'.
Proof. induction 1 as [|x y l l' H _ IH]; auto. cbn. now rewrite H, IH. Qed.

Theorem close_polygons_ok m fill faces nss : Forall2 (padded fill m) faces nss ->
  close_polygons faces fill = Ok (map (close_row m) nss).
Proof.
  intros H. unfold close_polygons.
  rewrite (mapres_ok _ faces (map (hd 0) nss)).
  2:{ induction H as [|row ns faces nss (E & Hn & _ & _) _ IH]; constructor; auto. destruct ns as [|n ns]; [congruence|]. subst row. reflexivity. }
  cbn [bind].
  assert (G : mask_assign (concat (map (fun row => row ++ [fill]) faces))
                (concat (map (map (fun x => x =? fill)) (map (fun row => row ++ [fill]) faces)))
                (np_repeat (map (hd 0) nss) (map count_true (map (map (fun x => x =? fill)) (map (fun row => row ++ [fill]) faces))))
              = Ok (concat (map (close_row m) nss))).
  { induction H as [|row ns faces nss (E & Hn & Hf & Hl) _ IH]; auto. cbn [map concat np_repeat].
    apply mask_app; auto; [now rewrite map_length|].
    subst row. rewrite <- app_assoc, repeat_snoc, map_app, count_app, count_none, count_all by auto. cbn [Nat.add].
    unfold close_row. replace (S m - length ns)%nat with (S (m - length ns)) by lia.
    rewrite <- (app_nil_l (repeat (hd 0 ns) (S (m - length ns)))) at 1.
    apply mask_app; [now rewrite map_length|apply mask_keep; auto|apply mask_fill]. }
  rewrite G. cbn [bind]. f_equal.
  destruct faces as [|row faces]; [inversion H; reflexivity|].
  assert (L : length (row :: faces) = length (map (close_row m) nss)) by (rewrite map_length; clear -H; induction H; cbn; auto).
  cbn [map]. rewrite L. replace (length (row ++ [fill])) with (S m).
  - apply rows_concat. clear L G. rewrite Forall_map. induction H as [|r ns rs nss (E & _ & _ & Hl) _ IH]; constructor; auto.
    apply close_row_length. auto.
  - inversion H as [|? ns ? ? (E & _ & _ & Hl)]. subst. rewrite !app_length, repeat_length. cbn. lia.
Qed.

(** ** unique rows *)
Definition lexlt (a b : Z * Z) : Prop := fst a < fst b \/ (fst a = fst b /\ snd a < snd b).
Lemma row_lt_iff a b : row_lt a b = true <-> lexlt a b.
Proof. unfold row_lt, lexlt. destruct a, b. cbn. lia. Qed.
Lemma row_lt_false a b : row_lt a b = false -> row_lt b a = false -> a = b.
Proof. unfold row_lt. destruct a, b. cbn. intros H1 H2. f_equal; lia. Qed.

Lemma insert_in a l x : In x (row_insert a l) <-> x = a \/ In x l.
Proof.
  induction l as [|b l IH]; cbn; [intuition|]. destruct (row_lt a b) eqn:E1; [cbn; intuition|].
  destruct (row_lt b a) eqn:E2; cbn; [rewrite IH; intuition|]. pose proof (row_lt_false a b E1 E2). subst. intuition.
Qed.
Lemma insert_sorted a l : StronglySorted lexlt l -> StronglySorted lexlt (row_insert a l).
Proof.
  induction 1 as [|b l H IH F]; cbn; [constructor; constructor|].
  destruct (row_lt a b) eqn:E1.
  - apply row_lt_iff in E1. constructor; [constructor; auto|]. constructor; auto. eapply Forall_impl; [|exact F].
    intros c Hc. unfold lexlt in *. lia.
  - destruct (row_lt b a) eqn:E2; [|constructor; auto]. apply row_lt_iff in E2. constructor; auto.
    rewrite Forall_forall in F |- *. intros x Hx. apply insert_in in Hx as [->|Hx]; auto.
Qed.
Lemma unique_in l x : In x (np_unique_rows l) <-> In x l.
Proof. induction l; cbn; [tauto|]. rewrite insert_in, IHl. intuition. Qed.
Lemma unique_sorted l : StronglySorted lexlt (np_unique_rows l).
Proof. induction l; cbn; [constructor|]. now apply insert_sorted. Qed.

(** ** the consecutive pairs *)
Lemma combine_app {A B} (a1 a2 : list A) (b1 b2 : list B) : length a1 = length b1 -> combine (a1 ++ a2) (b1 ++ b2) = combine a1 b1 ++ combine a2 b2.
Proof. revert b1. induction a1 as [|x a1 IH]; intros [|y b1] L; try discriminate; auto. cbn. f_equal. auto. Qed.
Lemma combine_concat (rows : list (list Z)) : combine (concat (map (fun row => removelast row) rows)) (concat (map (fun row => tl row) rows))
  = concat (map (fun row => combine (removelast row) (tl row)) rows).
Proof.
  induction rows as [|r rows IH]; auto. cbn. rewrite combine_app; [now rewrite IH|].
  rewrite removelast_firstn_len, firstn_length. destruct r; cbn; lia.
Qed.

Lemma pairs_nth (l : list Z) u v : In (u, v) (combine (removelast l) (tl l)) <-> exists k, nth_error l k = Some u /\ nth_error l (S k) = Some v.
Proof.
  induction l as [|a l IH]; [cbn; split; [tauto|intros ([|k] & H & _); discriminate]|].
  destruct l as [|b l]; [cbn; split; [tauto|intros ([|k] & _ & H); [discriminate|destruct k; discriminate]]|].
  change (removelast (a :: b :: l)) with (a :: removelast (b :: l)). cbn [tl combine]. 
  change (In (u, v) ((a, b) :: combine (removelast (b :: l)) (tl (b :: l))) <-> exists k, nth_error (a :: b :: l) k = Some u /\ nth_error (a :: b :: l) (S k) = Some v).
  cbn [In]. rewrite IH. split.
  - intros [E|(k & H1 & H2)]; [inversion E; exists 0%nat; auto|exists (S k); auto].
  - intros ([|k] & H1 & H2); [left; cbn in *; congruence|right; exists k; auto].
Qed.

Lemma nth_repeat {A} (x : A) k j : (j < k)%nat -> nth_error (repeat x k) j = Some x.
Proof. revert j. induction k; intros [|j] H; try lia; auto. cbn. apply IHk. lia. Qed.
Lemma nth_repeat_inv {A} (x y : A) k j : nth_error (repeat x k) j = Some y -> y = x.
Proof. intros H. apply nth_error_In, repeat_spec in H. auto. Qed.

Lemma closed_sides m ns u v : ns <> [] -> (length ns <= m)%nat ->
  (In (u, v) (combine (removelast (close_row m ns)) (tl (close_row m ns))) /\ u <> v) <-> (side ns u v /\ u <> v).
Proof.
  intros Hn Hl. rewrite pairs_nth. unfold side, close_row. set (K := (S m - length ns)%nat).
  assert (HK : (1 <= K)%nat) by (unfold K; lia). clearbody K.
  assert (Hp : (0 < length ns)%nat) by (destruct ns; cbn; [congruence|lia]).
  assert (H0 : nth_error ns 0 = Some (hd 0 ns)) by (destruct ns; [congruence|reflexivity]).
  split; intros ((k & E1 & E2) & D); split; auto; exists k.
  - destruct (Nat.lt_ge_cases (S k) (length ns)) as [L|L].
    + rewrite nth_error_app1 in E1, E2 by lia. rewrite Nat.mod_small by lia. auto.
    + rewrite nth_error_app2 in E2 by lia. apply nth_repeat_inv in E2. subst v.
      destruct (Nat.lt_ge_cases k (length ns)) as [L'|L'].
      * rewrite nth_error_app1 in E1 by lia. split; auto. replace (S k) with (length ns) by lia. rewrite Nat.mod_same by lia. auto.
      * rewrite nth_error_app2 in E1 by lia. apply nth_repeat_inv in E1. congruence.
  - assert (L : (k < length ns)%nat) by (apply nth_error_Some; congruence).
    rewrite nth_error_app1 by lia. split; auto.
    destruct (Nat.lt_ge_cases (S k) (length ns)) as [L'|L'].
    + rewrite Nat.mod_small in E2 by lia. rewrite nth_error_app1 by lia. auto.
    + replace (S k) with (length ns) in E2 by lia. rewrite Nat.mod_same in E2 by lia. rewrite nth_error_app2 by lia.
      rewrite nth_repeat by lia. congruence.
Qed.

Theorem edges_ok m fill faces nss : Forall2 (padded fill m) faces nss ->
  exists es, edges faces fill = Ok es /\ StronglySorted lexlt es
    /\ forall u v, In (u, v) es <-> u < v /\ exists ns, In ns nss /\ (side ns u v \/ side ns v u).
Proof.
  intros H. unfold edges. rewrite (close_polygons_ok m fill faces nss H). cbn [bind]. eexists. split; [reflexivity|].
  split; [apply unique_sorted|]. intros u v. rewrite unique_in, in_map_iff, combine_concat.
  assert (G : forall a b, In (a, b) (filter (fun e => negb (fst e =? snd e))
      (concat (map (fun row => combine (removelast row) (tl row)) (map (close_row m) nss)))) <-> exists ns, In ns nss /\ side ns a b /\ a <> b).
  { intros a b. rewrite filter_In, in_concat. cbn [fst snd].
    assert (HN : forall ns, In ns nss -> ns <> [] /\ (length ns <= m)%nat).
    { intros ns Hi. clear -H Hi. induction H as [|r n fs nss (E & Hn & _ & Hl) _ IH]; [destruct Hi|]. destruct Hi as [<-|Hi]; auto. }
    split.
    - intros ((x & Hx & Hi) & D). rewrite map_map, in_map_iff in Hx. destruct Hx as (ns & <- & Hns). exists ns. split; auto.
      apply (closed_sides m); try apply HN; auto. split; auto. lia.
    - intros (ns & Hns & Hs & D). split; [|lia]. exists (combine (removelast (close_row m ns)) (tl (close_row m ns))). split.
      + rewrite map_map. apply in_map_iff. eauto.
      + apply (closed_sides m ns a b); try apply HN; auto. }
  split.
  - intros ((a, b) & E & Hi). apply G in Hi as (ns & Hns & Hs & D). cbn in E. inversion E. subst. split; [lia|]. exists ns. split; auto.
    destruct (Z.lt_ge_cases a b); [left; rewrite Z.min_l, Z.max_r by lia; auto|right; rewrite Z.min_r, Z.max_l by lia; auto].
  - intros (L & ns & Hns & [Hs|Hs]); [exists (u, v)|exists (v, u)]; (split; [cbn; f_equal; lia|]); apply G; exists ns; repeat split; auto; lia.
Qed.
