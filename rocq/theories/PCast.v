(** cast.py: what it accepts and what it delivers. *)
From Verif Require Import Base Num MUtils MGeometry MCreation MAlgorithms MQuery MCelltree MHeap MCast SpecCast.

Section PCast.
  Context {T : Type} {NT : Num T}.
  Notation point := (point T).
  Notation box := (box T).
  Notation scalar := (scalar (T:=T)).
  Notation nest := (nest (T:=T)).
  Notation ndarray := (ndarray (T:=T)).
  Notation arg := (arg (T:=T)).

  Lemma shape_eqb_eq s : forall s', shape_eqb s s' = true <-> s = s'.
  Proof.
    induction s as [|d s IH]; intros [|d' s']; cbn; split; intros H; try discriminate; auto.
    - apply andb_prop in H. destruct H as (H1 & H2). apply Nat.eqb_eq in H1. apply IH in H2. congruence.
    - injection H as -> ->. rewrite Nat.eqb_refl. cbn. now apply IH.
  Qed.

  Section NestInd.
    Variable P : nest -> Prop.
    Hypothesis HL : forall x, P (Leaf x).
    Hypothesis HN : forall l, Forall P l -> P (Node l).
    Fixpoint nest_ind2 (n : nest) : P n :=
      match n with
      | Leaf x => HL x
      | Node l => HN l ((fix go l : Forall P l :=
          match l with [] => Forall_nil _ | c :: l => Forall_cons _ (nest_ind2 c) (go l) end) l)
      end.
  End NestInd.

  Lemma nest_has_fun (n : nest) : forall s s', nest_has n s -> nest_has n s' -> s = s'.
  Proof.
    induction n as [x|l IH] using nest_ind2; intros s s' H H'.
    - inversion H; inversion H'; congruence.
    - inversion H as [|E|l1 s1 N1 F1 E]; subst; inversion H' as [|E'|l2 s2 N2 F2 E']; subst; auto; try congruence.
      f_equal. destruct l as [|c l]; [congruence|]. inversion IH; subst. eauto using in_eq.
  Qed.
  Lemma has_shape_fun (a : arg) s s' : has_shape a s -> has_shape a s' -> s = s'.
  Proof. destruct a; cbn; [congruence|apply nest_has_fun]. Qed.

  Lemma nest_shape_spec (n : nest) : forall s, nest_shape n = Ok s <-> nest_has n s.
  Proof.
    induction n as [x|l IH] using nest_ind2; intros s.
    - cbn. split; intros H; [injection H as <-; constructor|inversion H; auto].
    - destruct l as [|c l]; [cbn; split; intros H; [injection H as <-; constructor|inversion H; auto; congruence]|].
      inversion IH as [|? ? Hc Hl]; subst. clear IH. change (nest_shape (Node (c :: l))) with
        (let* s := nest_shape c in
         if forallb (fun r => match r with Ok s' => shape_eqb s s' | Err _ => false end) (map nest_shape l)
         then Ok (length (c :: l) :: s) else Err EValue).
      split.
      + intros H. apply bind_ok in H as (s0 & E0 & H). destruct (forallb _ _) eqn:E; [|discriminate].
        injection H as <-. constructor; [discriminate|]. intros c' [<-|H']; [now apply Hc|].
        rewrite forallb_forall in E. specialize (E (nest_shape c') (in_map _ _ _ H')).
        rewrite Forall_forall in Hl. destruct (nest_shape c') as [s'|] eqn:E'; [|discriminate].
        apply shape_eqb_eq in E. subst s'. now apply Hl.
      + intros H. inversion H as [| |l' s0 N F]; subst. 
        rewrite (proj2 (Hc s0)) by auto using in_eq. cbn [bind].
        assert (E : forallb (fun r => match r with Ok s' => shape_eqb s0 s' | Err _ => false end) (map nest_shape l) = true).
        { apply forallb_forall. intros r Hr. apply in_map_iff in Hr as (c' & <- & Hc').
          rewrite Forall_forall in Hl. rewrite (proj2 (Hl c' Hc' s0)) by auto using in_cons. now apply shape_eqb_eq. }
        now rewrite E.
  Qed.
  Lemma nest_shape_err (n : nest) : forall e, nest_shape n = Err e -> e = EValue.
  Proof.
    induction n as [x|l IH] using nest_ind2; intros e H; [discriminate|].
    destruct l as [|c l]; [discriminate|]. inversion IH as [|? ? Hc Hl]; subst. cbn in H.
    destruct (nest_shape c) as [s|e'] eqn:E; cbn [bind] in H.
    - destruct (forallb _ _); congruence.
    - injection H as <-. now apply Hc.
  Qed.

  Lemma nth_error_skipn {A} n : forall (l : list A) i, nth_error (skipn n l) i = nth_error l (n + i).
  Proof. induction n as [|n IH]; intros [|x l] i; cbn; auto. destruct i; auto. Qed.

  Lemma flat_length l s : Forall (fun c : nest => length (nest_flat c) = size s) l -> length (flat_map nest_flat l) = (length l * size s)%nat.
  Proof. induction 1; cbn; auto. rewrite app_length. lia. Qed.
  Lemma size_cons m s : size (m :: s) = (m * size s)%nat.
  Proof. reflexivity. Qed.
  Lemma read_app {A} s : forall (d d' : list A) ix, length d = size s -> read s (d ++ d') ix = read s d ix.
  Proof.
    induction s as [|m s IH]; intros d d' [|i ix] H; cbn [read]; auto.
    - cbn in H. destruct d as [|x [|y d]]; try discriminate. reflexivity.
    - destruct (Nat.ltb_spec i m) as [L|L]; auto. 
      assert (G : (i * size s + size s <= length d)%nat) by (rewrite H, size_cons; nia).
      rewrite skipn_app. replace (i * size s - length d)%nat with 0%nat by lia. cbn [skipn].
      set (e := skipn (i * size s) d). assert (Le : (size s <= length e)%nat) by (unfold e; rewrite skipn_length; lia).
      rewrite <- (firstn_skipn (size s) e), <- app_assoc.
      rewrite !IH; auto; rewrite firstn_length; lia.
  Qed.
  Lemma read_flat l s ix : Forall (fun c : nest => length (nest_flat c) = size s) l -> forall i c,
    nth_error l i = Some c -> read s (skipn (i * size s) (flat_map nest_flat l)) ix = read s (nest_flat c) ix.
  Proof.
    induction 1 as [|x l H _ IH]; intros i c E; [destruct i; discriminate|]. destruct i as [|i].
    - injection E as ->. cbn [Nat.mul skipn flat_map]. now apply read_app.
    - cbn [flat_map]. rewrite skipn_app. rewrite skipn_all2 by lia.
      replace (S i * size s - length (nest_flat x))%nat with (i * size s)%nat by lia. cbn [app]. now apply IH.
  Qed.

  Lemma nest_flat_spec (n : nest) s : nest_has n s -> length (nest_flat n) = size s /\ forall ix, read s (nest_flat n) ix = nest_at n ix.
  Proof.
    revert s. induction n as [x|l IH] using nest_ind2; intros s H; inversion H as [|E|l' s0 N F E]; subst.
    - split; auto. intros [|i ix]; reflexivity.
    - split; auto. intros [|i ix]; cbn; auto. now destruct i.
    - assert (FL : Forall (fun c : nest => length (nest_flat c) = size s0) l).
      { rewrite Forall_forall in *. intros c Hc. now apply IH; auto. }
      split; [cbn [nest_flat size fold_right]; now apply flat_length|].
      intros [|i ix]; cbn [read nest_at nest_flat]; auto.
      destruct (Nat.ltb_spec i (length l)) as [L|L].
      + destruct (nth_error l i) as [c|] eqn:Ei; [|apply nth_error_None in Ei; lia].
        rewrite (read_flat l s0 ix FL i c Ei). rewrite Forall_forall in IH. apply nth_error_In in Ei. apply (IH c Ei). auto.
      + apply nth_error_None in L. now rewrite L.
  Qed.

  (** ** The elements of an argument as one list *)
  Definition contents (a : arg) : list scalar :=
    match a with ANd a => SpecCast.elements (nd_buf a) | ANest n => nest_flat n end.

  Lemma contents_spec (a : arg) s : wf_arg a -> has_shape a s ->
    length (contents a) = size s /\ forall ix, arr_at a ix = read s (contents a) ix.
  Proof.
    destruct a as [a|n]; cbn; intros W H.
    - subst s. auto.
    - destruct (nest_flat_spec n s H) as (L & R). split; auto.
  Qed.

  Lemma as_float_spec (a : arg) :
    (forall s, has_shape a s -> as_float a = Ok (s, map number (contents a)))
    /\ (forall e, as_float a = Err e -> e = EValue)
    /\ (forall s d, as_float a = Ok (s, d) -> has_shape a s).
  Proof.
    destruct a as [a|n]; cbn [as_float contents has_shape].
    - split; [|split; [intros; discriminate|]].
      + intros s ->. destruct (nd_buf a); cbn [SpecCast.elements]; rewrite map_map; cbn [number]; rewrite ?map_id; reflexivity.
      + intros s d H. now injection H.
    - split; [|split].
      + intros s H. apply nest_shape_spec in H. rewrite H. reflexivity.
      + intros e H. destruct (nest_shape n) as [s|e'] eqn:E; cbn [bind] in H; [discriminate|].
        injection H as <-. now apply nest_shape_err in E.
      + intros s d H. apply bind_ok in H as (s' & E & H). injection H as <- _. now apply nest_shape_spec.
  Qed.

  (** ** Rows *)
  Lemma rows_length {A} n w : forall d : list A, length (rows n w d) = n.
  Proof. induction n; cbn; intros; auto. Qed.
  Lemma skipn_skipn {A} a b (l : list A) : skipn a (skipn b l) = skipn (b + a) l.
  Proof. revert l. induction b as [|b IH]; intros [|x l]; cbn; auto. now rewrite !skipn_nil. Qed.
  Lemma rows_nth {A} n w : forall (d : list A) i, (i < n)%nat -> nth_error (rows n w d) i = Some (firstn w (skipn (i * w) d)).
  Proof.
    induction n as [|n IH]; intros d i H; [lia|]. destruct i as [|i]; cbn [rows nth_error]; auto.
    rewrite IH by lia. rewrite skipn_skipn. reflexivity.
  Qed.
  Lemma nth_error_firstn {A} w : forall (l : list A) i, (i < w)%nat -> nth_error (firstn w l) i = nth_error l i.
  Proof. induction w as [|w IH]; intros [|x l] i H; cbn; auto; try lia. destruct i; cbn; auto. apply IH. lia. Qed.

  Lemma read2 {A} n w (d : list A) i j : (i < n)%nat -> (j < w)%nat -> read [n; w] d [i; j] = nth_error d (i * w + j).
  Proof.
    intros Hi Hj. cbn [read size fold_right]. rewrite (proj2 (Nat.ltb_lt i n)), (proj2 (Nat.ltb_lt j w)) by auto.
    rewrite !nth_error_skipn. f_equal. lia.
  Qed.
  Lemma read3 {A} n v w (d : list A) i j k : (i < n)%nat -> (j < v)%nat -> (k < w)%nat ->
    read [n; v; w] d [i; j; k] = nth_error d (i * (v * w) + (j * w + k)).
  Proof.
    intros Hi Hj Hk. cbn [read size fold_right]. rewrite (proj2 (Nat.ltb_lt i n)), (proj2 (Nat.ltb_lt j v)), (proj2 (Nat.ltb_lt k w)) by auto.
    rewrite !nth_error_skipn. f_equal. lia.
  Qed.

  (** an entry of a row *)
  Lemma col_row (l : list scalar) n w i j r : length l = (n * w)%nat -> (j < w)%nat ->
    nth_error (rows n w (map number l)) i = Some r -> exists x, nth_error l (i * w + j) = Some x /\ col r j = number x.
  Proof.
    intros Hl Hj E. assert (Hi : (i < n)%nat).
    { assert (nth_error (rows n w (map number l)) i <> None) as N by congruence. apply nth_error_Some in N. now rewrite rows_length in N. }
    rewrite rows_nth in E by auto. injection E as <-.
    destruct (nth_error l (i * w + j)) as [x|] eqn:Ex; [|apply nth_error_None in Ex; nia].
    exists x. split; auto. unfold col. apply nth_error_nth. rewrite nth_error_firstn by auto. rewrite nth_error_skipn.
    now apply map_nth_error.
  Qed.

  Lemma nth_map {A B} (f : A -> B) l i y : nth_error (map f l) i = Some y -> exists x, nth_error l i = Some x /\ y = f x.
  Proof. rewrite nth_error_map. destruct (nth_error l i); cbn; intros H; [injection H as <-; eauto|discriminate]. Qed.
  Lemma nth_ext_eq {A} (l l' : list A) : length l = length l' -> (forall i x y, nth_error l i = Some x -> nth_error l' i = Some y -> x = y) -> l = l'.
  Proof.
    revert l'. induction l as [|a l IH]; intros [|b l'] HL H; try discriminate; auto. f_equal.
    - apply (H 0%nat); reflexivity.
    - apply IH; [now injection HL|]. intros i x y. apply (H (S i)).
  Qed.
  Lemma num_at_fun (a : arg) ix v v' : num_at a ix v -> num_at a ix v' -> v = v'.
  Proof. intros (x & E & ->) (x' & E' & ->). congruence. Qed.

  Lemma has2 (a : arg) s : has_shape a s -> (length s =? 2)%nat = true -> s = [nth 0 s 0%nat; nth 1 s 0%nat].
  Proof. intros _. destruct s as [|x [|y [|z s]]]; cbn; intros; try discriminate; auto. Qed.

  (** ** The four casts *)
  Theorem cast_vertices_spec (a : arg) : wf_arg a ->
    (forall ps, cast_vertices a = Ok ps <-> holds_points a ps)
    /\ (forall e, cast_vertices a = Err e -> e = EValue /\ forall n, ~ has_shape a [n; 2%nat]).
  Proof.
    intros W. destruct (as_float_spec a) as (A1 & A2 & A3).
    assert (G : forall n, has_shape a [n; 2%nat] -> exists ps, cast_vertices a = Ok ps /\ holds_points a ps).
    { intros n Hn. unfold cast_vertices. rewrite (A1 _ Hn). cbn [bind length Nat.eqb nth negb orb].
      eexists. split; [reflexivity|]. split; [now rewrite map_length, rows_length|].
      intros i p Ep. apply nth_map in Ep as (r & Er & ->). destruct (contents_spec a _ W Hn) as (L & R).
      assert (Hi : (i < n)%nat).
      { assert (nth_error (rows n 2 (map number (contents a))) i <> None) as N by congruence. apply nth_error_Some in N. now rewrite rows_length in N. }
      assert (L2 : length (contents a) = (n * 2)%nat) by (rewrite L; cbn; lia).
      split; unfold num_at; rewrite R, read2 by lia; eapply (col_row _ n 2); eauto. }
    assert (U : forall ps ps', holds_points a ps -> holds_points a ps' -> ps = ps').
    { intros ps ps' (S & H) (S' & H'). pose proof (has_shape_fun _ _ _ S S') as E. injection E as E.
      apply nth_ext_eq; auto. intros i p p' Ep Ep'. destruct (H _ _ Ep), (H' _ _ Ep').
      destruct p, p'; cbn in *; f_equal; eapply num_at_fun; eauto. }
    assert (C : forall e, cast_vertices a = Err e -> e = EValue /\ forall n, ~ has_shape a [n; 2%nat]).
    { intros e E. split; [|intros n Hn; destruct (G n Hn) as (ps & E' & _); congruence].
      unfold cast_vertices in E. destruct (as_float a) as [(s, d)|e'] eqn:Ea; cbn [bind] in E; [|injection E as <-; now apply A2].
      destruct (_ || _)%bool; congruence. }
    split; auto. intros ps. split.
    - intros E. unfold cast_vertices in E. apply bind_ok in E as ((s, d) & Ea & E).
      pose proof (A3 _ _ Ea) as Hs. destruct (negb (length s =? 2)%nat) eqn:E2; [discriminate|]. cbn [orb] in E.
      destruct (negb (nth 1 s 0%nat =? 2)%nat) eqn:E1; [discriminate|].
      apply Bool.negb_false_iff in E2, E1. apply Nat.eqb_eq in E1. pose proof (has2 a s Hs E2) as Es. rewrite E1 in Es.
      rewrite Es in Hs. destruct (G _ Hs) as (ps' & E' & H'). 
      assert (cast_vertices a = Ok ps); [|congruence]. unfold cast_vertices. rewrite Ea. cbn [bind]. rewrite E2, E1. exact E.
    - intros H. destruct (G _ (proj1 H)) as (ps' & E' & H'). now rewrite (U _ _ H H').
  Qed.

  Theorem cast_bboxes_spec (a : arg) : wf_arg a ->
    (forall bs, cast_bboxes a = Ok bs <-> holds_boxes a bs)
    /\ (forall e, cast_bboxes a = Err e -> e = EValue /\ forall n, ~ has_shape a [n; 4%nat]).
  Proof.
    intros W. destruct (as_float_spec a) as (A1 & A2 & A3).
    assert (G : forall n, has_shape a [n; 4%nat] -> exists ps, cast_bboxes a = Ok ps /\ holds_boxes a ps).
    { intros n Hn. unfold cast_bboxes. rewrite (A1 _ Hn). cbn [bind length Nat.eqb nth negb orb].
      eexists. split; [reflexivity|]. split; [now rewrite map_length, rows_length|].
      intros i p Ep. apply nth_map in Ep as (r & Er & ->). destruct (contents_spec a _ W Hn) as (L & R).
      assert (Hi : (i < n)%nat).
      { assert (nth_error (rows n 4 (map number (contents a))) i <> None) as N by congruence. apply nth_error_Some in N. now rewrite rows_length in N. }
      assert (L2 : length (contents a) = (n * 4)%nat) by (rewrite L; cbn; lia).
      repeat split; unfold num_at; rewrite R, read2 by lia; eapply (col_row _ n 4); eauto; lia. }
    assert (U : forall ps ps', holds_boxes a ps -> holds_boxes a ps' -> ps = ps').
    { intros ps ps' (S & H) (S' & H'). pose proof (has_shape_fun _ _ _ S S') as E. injection E as E.
      apply nth_ext_eq; auto. intros i p p' Ep Ep'. destruct (H _ _ Ep) as (? & ? & ? & ?), (H' _ _ Ep') as (? & ? & ? & ?).
      destruct p, p'; cbn in *; f_equal; eapply num_at_fun; eauto. }
    assert (C : forall e, cast_bboxes a = Err e -> e = EValue /\ forall n, ~ has_shape a [n; 4%nat]).
    { intros e E. split; [|intros n Hn; destruct (G n Hn) as (ps & E' & _); congruence].
      unfold cast_bboxes in E. destruct (as_float a) as [(s, d)|e'] eqn:Ea; cbn [bind] in E; [|injection E as <-; now apply A2].
      destruct (_ || _)%bool; congruence. }
    split; auto. intros ps. split.
    - intros E. unfold cast_bboxes in E. apply bind_ok in E as ((s, d) & Ea & E).
      pose proof (A3 _ _ Ea) as Hs. destruct (negb (length s =? 2)%nat) eqn:E2; [discriminate|]. cbn [orb] in E.
      destruct (negb (nth 1 s 0%nat =? 4)%nat) eqn:E1; [discriminate|].
      apply Bool.negb_false_iff in E2, E1. apply Nat.eqb_eq in E1. pose proof (has2 a s Hs E2) as Es. rewrite E1 in Es.
      rewrite Es in Hs. destruct (G _ Hs) as (ps' & E' & H'). 
      assert (cast_bboxes a = Ok ps); [|congruence]. unfold cast_bboxes. rewrite Ea. cbn [bind]. rewrite E2, E1. exact E.
    - intros H. destruct (G _ (proj1 H)) as (ps' & E' & H'). now rewrite (U _ _ H H').
  Qed.

  Theorem cast_edges_spec (a : arg) : wf_arg a ->
    (forall es, cast_edges a = Ok es <-> holds_edges a es)
    /\ (forall e, cast_edges a = Err e -> e = EValue /\ forall n, ~ has_shape a [n; 2%nat; 2%nat]).
  Proof.
    intros W. destruct (as_float_spec a) as (A1 & A2 & A3).
    assert (G : forall n, has_shape a [n; 2%nat; 2%nat] -> exists ps, cast_edges a = Ok ps /\ holds_edges a ps).
    { intros n Hn. unfold cast_edges. rewrite (A1 _ Hn). cbn [bind length Nat.eqb nth negb orb].
      eexists. split; [reflexivity|]. split; [now rewrite map_length, rows_length|].
      intros i p Ep. apply nth_map in Ep as (r & Er & ->). destruct (contents_spec a _ W Hn) as (L & R).
      assert (Hi : (i < n)%nat).
      { assert (nth_error (rows n 4 (map number (contents a))) i <> None) as N by congruence. apply nth_error_Some in N. now rewrite rows_length in N. }
      assert (L2 : length (contents a) = (n * 4)%nat) by (rewrite L; cbn; lia).
      repeat split; unfold num_at; rewrite R, read3 by lia; cbn [Nat.mul Nat.add]; eapply (col_row _ n 4); eauto; lia. }
    assert (U : forall ps ps', holds_edges a ps -> holds_edges a ps' -> ps = ps').
    { intros ps ps' (S & H) (S' & H'). pose proof (has_shape_fun _ _ _ S S') as E. injection E as E.
      apply nth_ext_eq; auto. intros i p p' Ep Ep'. destruct (H _ _ Ep) as (? & ? & ? & ?), (H' _ _ Ep') as (? & ? & ? & ?).
      destruct p as ([], []), p' as ([], []); cbn in *; repeat f_equal; eapply num_at_fun; eauto. }
    assert (C : forall e, cast_edges a = Err e -> e = EValue /\ forall n, ~ has_shape a [n; 2%nat; 2%nat]).
    { intros e E. split; [|intros n Hn; destruct (G n Hn) as (ps & E' & _); congruence].
      unfold cast_edges in E. destruct (as_float a) as [(s, d)|e'] eqn:Ea; cbn [bind] in E; [|injection E as <-; now apply A2].
      destruct (_ || _)%bool; congruence. }
    split; auto. intros ps. split.
    - intros E. pose proof E as E9. unfold cast_edges in E. apply bind_ok in E as ((s, d) & Ea & E).
      pose proof (A3 _ _ Ea) as Hs. destruct (_ || _)%bool eqn:EE; [discriminate|].
      apply Bool.orb_false_iff in EE as (EE & E3). apply Bool.orb_false_iff in EE as (E1 & E2).
      apply Bool.negb_false_iff in E3, E2, E1. apply Nat.eqb_eq in E3, E2, E1.
      destruct s as [|n [|y [|z [|w s]]]]; try discriminate. cbn in E2, E3. subst y z.
      destruct (G _ Hs) as (ps' & E' & H'). congruence.
    - intros H. destruct (G _ (proj1 H)) as (ps' & E' & H'). now rewrite (U _ _ H H').
  Qed.

  Section Ints.
    Variable aint : T -> Z.
    Variable lint : T -> res Z.
    Notation cast_faces_arg := (cast_faces_arg aint lint).

    Lemma as_int_spec (a : arg) s : wf_arg a -> int_arg a -> has_shape a s ->
      exists d, as_int aint lint a = Ok (s, d) /\ contents a = map SI d.
    Proof.
      intros W I H. destruct (contents_spec a s W H) as (L & R).
      assert (K : forall i x, nth_error (contents a) i = Some x -> exists n, x = SI n).
      { (* every element has an index *)
        assert (IX : forall s i, (i < size s)%nat -> exists ix, forall d : list scalar, read s d ix = nth_error d i).
        { clear. induction s as [|m s IH]; intros i Hi.
          - exists []. intros d. cbn in Hi. replace i with 0%nat by lia. reflexivity.
          - cbn [size fold_right] in Hi. fold (size s) in Hi. assert (Ps : size s <> 0%nat) by nia.
            destruct (IH (i mod size s)%nat) as (ix & Hx); [apply Nat.mod_upper_bound; auto|].
            exists (i / size s :: ix)%nat. intros d. cbn [read].
            rewrite (proj2 (Nat.ltb_lt _ _)) by (apply Nat.div_lt_upper_bound; lia).
            rewrite Hx, nth_error_skipn. f_equal. rewrite (Nat.div_mod i (size s)) at 3 by auto. lia. }
        intros i x E. destruct (IX s i) as (ix & Hx); [rewrite <- L; apply nth_error_Some; congruence|].
        apply (I ix). rewrite R, Hx. exact E. }
      assert (Q : forall l : list scalar, (forall i x, nth_error l i = Some x -> exists n, x = SI n) -> exists d, l = map SI d).
      { clear. induction l as [|x l IH]; intros K; [exists []; reflexivity|].
        destruct (K 0%nat x eq_refl) as (n & ->). destruct IH as (d & ->); [intros i y E; apply (K (S i)); auto|]. exists (n :: d). reflexivity. }
      destruct (Q _ K) as (d & Ed). exists d. split; auto.
      destruct a as [a|n]; cbn [as_int contents has_shape] in *.
      - subst s. destruct (nd_buf a) as [l|l]; cbn [SpecCast.elements] in Ed.
        + destruct l, d; try discriminate. reflexivity.
        + assert (l = d); [|congruence]. clear -Ed. revert d Ed. induction l as [|x l IH]; intros [|y d] E; try discriminate; auto.
          injection E as -> E. f_equal. auto.
      - apply nest_shape_spec in H. rewrite H, Ed. cbn [bind].
        assert (mapres (to_int lint) (map SI d) = Ok d) as ->; [|reflexivity].
        clear. induction d as [|x d IH]; cbn; auto. now rewrite IH.
    Qed.

    (** the rows before the fill value is replaced *)
    Lemma int_rows (a : arg) n w : wf_arg a -> int_arg a -> has_shape a [n; w] ->
      exists d, as_int aint lint a = Ok ([n; w], d) /\ holds_ints a w (rows n w d).
    Proof.
      intros W I H. destruct (as_int_spec a _ W I H) as (d & Ea & Ed). exists d. split; auto.
      destruct (contents_spec a _ W H) as (L & R). rewrite Ed, map_length in L. cbn in L.
      split; [now rewrite rows_length|]. intros i f Ef.
      assert (Hi : (i < n)%nat).
      { assert (nth_error (rows n w d) i <> None) as N by congruence. apply nth_error_Some in N. now rewrite rows_length in N. }
      rewrite rows_nth in Ef by auto. injection Ef as <-.
      assert (Lf : length (firstn w (skipn (i * w) d)) = w) by (rewrite firstn_length, skipn_length; nia).
      split; auto. intros j z Ej.
      assert (Hj : (j < w)%nat).
      { assert (nth_error (firstn w (skipn (i * w) d)) j <> None) as N by congruence. apply nth_error_Some in N. now rewrite Lf in N. }
      rewrite nth_error_firstn in Ej by auto. rewrite nth_error_skipn in Ej. rewrite R, read2, Ed by auto. now apply map_nth_error.
    Qed.
    Lemma holds_ints_fun (a : arg) w w' fs fs' : holds_ints a w fs -> holds_ints a w' fs' -> w = w' /\ fs = fs'.
    Proof.
      intros (S & H) (S' & H'). pose proof (has_shape_fun _ _ _ S S') as E. injection E as E <-. split; auto.
      apply nth_ext_eq; auto. intros i f f' Ef Ef'. destruct (H _ _ Ef) as (L & G), (H' _ _ Ef') as (L' & G').
      apply nth_ext_eq; [congruence|]. intros j x y Ex Ey. pose proof (G _ _ Ex). pose proof (G' _ _ Ey). congruence.
    Qed.

    Theorem cast_faces_spec (a : arg) fill : wf_arg a -> int_arg a ->
      (forall w fs, holds_ints a w fs -> (w <= 32)%nat -> exists fs', cast_faces_arg a fill = Ok (fs', w) /\ cast_faces fs fill = Ok fs')
      /\ ((forall n w, has_shape a [n; w] -> (32 < w)%nat) -> cast_faces_arg a fill = Err EValue)
      /\ (forall n w, has_shape a [n; w] -> exists fs, holds_ints a w fs).
    Proof.
      intros W I. split; [|split].
      - intros w fs H Hw. destruct (int_rows a _ w W I (proj1 H)) as (d & Ea & Hd).
        destruct (holds_ints_fun _ _ _ _ _ Hd H) as (_ & Ed).
        unfold MCast.cast_faces_arg. rewrite Ea. cbn [bind length Nat.eqb nth negb].
        rewrite (proj2 (Nat.ltb_ge _ _)) by exact Hw. eexists. split; [reflexivity|]. rewrite Ed. unfold cast_faces.
        assert (E : existsb (fun f : list Z => (MAX_N_VERTEX <? length f)%nat) fs = false).
        { destruct (existsb _ fs) eqn:E; auto. apply existsb_exists in E as (f & Hf & E). apply In_nth_error in Hf as (i & Hi).
          destruct (proj2 H _ _ Hi) as (L & _). apply Nat.ltb_lt in E. unfold MAX_N_VERTEX in E. lia. }
        rewrite E. now destruct (negb _).
      - intros N. unfold MCast.cast_faces_arg. destruct (as_int aint lint a) as [(s, d)|e] eqn:Ea; cbn [bind].
        + assert (Hs : has_shape a s).
          { destruct a as [a|n]; cbn in Ea |- *; [now injection Ea|]. apply bind_ok in Ea as (s' & E1 & Ea).
            apply bind_ok in Ea as (l & E2 & Ea). injection Ea as <- _. now apply nest_shape_spec. }
          destruct (length s =? 2)%nat eqn:E2; cbn [negb]; auto. rewrite (has2 a s Hs E2) in Hs.
          rewrite (proj2 (Nat.ltb_lt _ _)); auto. apply (N _ _ Hs).
        + f_equal. destruct a as [a|n]; cbn in Ea; [discriminate|]. destruct (nest_shape n) as [s|e'] eqn:E; cbn [bind] in Ea.
          * exfalso. apply nest_shape_spec in E. destruct (as_int_spec (ANest n) s W I E) as (d & Ea' & _).
            cbn in Ea'. apply nest_shape_spec in E. rewrite E in Ea'. cbn [bind] in Ea'. congruence.
          * injection Ea as <-. eapply nest_shape_err; eauto.
      - intros n w H. destruct (int_rows a n w W I H) as (d & _ & Hd). eauto.
    Qed.
  End Ints.
End PCast.
