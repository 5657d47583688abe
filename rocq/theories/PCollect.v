(** Result buffers: emitting hits, retries, the loop over the query items,
    chunks and concatenation. *)
From Verif Require Import Base Num MUtils MGeometry MCreation MAlgorithms MQuery
  PStack PPartition PBuild PWalk.

(** The rows of the elements of a list that are hits *)
Fixpoint hits {A} (h : Z -> option A) (l : list Z) : list A :=
  match l with
  | [] => []
  | i :: t => match h i with Some r => r :: hits h t | None => hits h t end
  end.

Lemma hits_app {A} (h : Z -> option A) l1 l2 : hits h (l1 ++ l2) = hits h l1 ++ hits h l2.
Proof. induction l1 as [|i t IH]; simpl; auto. destruct (h i); simpl; congruence. Qed.

Lemma hits_perm {A} (h : Z -> option A) l1 l2 :
  Permutation l1 l2 -> Permutation (hits h l1) (hits h l2).
Proof.
  induction 1; simpl; auto.
  - destruct (h x); auto.
  - destruct (h x), (h y); auto. apply perm_swap.
  - etransitivity; eauto.
Qed.

Lemma hits_none {A} (h : Z -> option A) l : Forall (fun i => h i = None) l -> hits h l = [].
Proof. induction 1 as [|i t E _ IH]; simpl; auto. now rewrite E. Qed.

Lemma hits_length {A} (h : Z -> option A) l : (length (hits h l) <= length l)%nat.
Proof. induction l as [|i t IH]; simpl; auto. destruct (h i); simpl; lia. Qed.

Section Collect.
  Context {A : Type}.
  Notation collect := (collect A).

  (** What emitting the rows [hs] does to a buffer whose used part is [pre]
      and whose free part is [free] *)
  Definition emitted (pre free : list A) (size count : Z) (hs : list A) : collect + collect :=
    if (length hs <=? length free)%nat
    then inr (Collect (pre ++ hs ++ skipn (length hs) free)
                      (size + zlen hs) (count + zlen hs))
    else inl (Collect (pre ++ firstn (length free) hs)
                      (size + zlen free) (-1)).

  Lemma emit_hits_ok (hit : Z -> res (option A)) (h : Z -> option A) l :
    Forall (fun i => hit i = Ok (h i)) l ->
    forall pre free size count, size = zlen pre ->
    emit_hits hit l (Collect (pre ++ free) size count)
    = Ok (emitted pre free size count (hits h l)).
  Proof.
    induction 1 as [|i t E _ IH]; intros pre free size count Hs.
    - unfold emitted. simpl. unfold zlen. simpl. now rewrite !Z.add_0_r.
    - cbn [emit_hits hits]. rewrite E. cbn [bind].
      destruct (h i) as [row|]; [|now apply IH].
      unfold emit. cbn [c_rows c_size c_count].
      destruct free as [|x free].
      + rewrite app_nil_r.
        destruct (zlen pre <=? size) eqn:E1; [|lia]. cbn [bind].
        unfold emitted. simpl. rewrite app_nil_r. f_equal. f_equal. f_equal.
        unfold zlen. simpl. lia.
      + destruct (zlen (pre ++ x :: free) <=? size) eqn:E1.
        { apply Z.leb_le in E1. subst size. rewrite zlen_app in E1. unfold zlen in E1. simpl in E1. lia. }
        subst size. rewrite aset_mid by reflexivity. cbn [bind].
        replace (pre ++ row :: free) with ((pre ++ [row]) ++ free) by now rewrite <- app_assoc.
        rewrite IH by (rewrite zlen_app; reflexivity).
        unfold emitted. cbn [length]. cbn [Nat.leb].
        destruct (length (hits h t) <=? length free)%nat eqn:E2; f_equal; f_equal;
          rewrite <- !app_assoc; cbn [app]; cbn [firstn skipn]; f_equal; unfold zlen; simpl length; lia.
  Qed.

  Lemma emit_hits_app (hit : Z -> res (option A)) l1 l2 st :
    emit_hits hit (l1 ++ l2) st =
    match emit_hits hit l1 st with
    | Err e => Err e
    | Ok (inl st') => Ok (inl st')
    | Ok (inr st') => emit_hits hit l2 st'
    end.
  Proof.
    revert st. induction l1 as [|i t IH]; intros st; [reflexivity|].
    cbn [app emit_hits]. destruct (hit i) as [[row|]|e]; cbn [bind]; auto.
    destruct (emit row st) as [[st'|st']|e]; cbn [bind]; auto.
  Qed.

  (** A query whose traversal emits the rows [hs] *)
  Definition runs (run : list A -> Z -> res collect) (hs : list A) : Prop :=
    forall pre free, run (pre ++ free) (zlen pre)
      = Ok (match emitted pre free (zlen pre) 0 hs with inl st => st | inr st => st end).

  Lemma grow_app mem (l : list A) : exists extra, grow mem l = l ++ extra /\ length extra = length l.
  Proof.
    unfold grow. eexists; split; [reflexivity|].
    rewrite skipn_length, np_empty_length. lia.
  Qed.

  (** The retry loop delivers the rows of the query, whatever the capacity *)
  Lemma retry_ok mem run hs (Hrun : runs run hs) : forall fuel pre free,
    (1 <= length pre + length free)%nat ->
    (length hs < length free + fuel)%nat -> (1 <= fuel)%nat ->
    exists free', retry mem run fuel (pre ++ free) (zlen pre) (zlen pre)
      = Ok (pre ++ hs ++ free', zlen (pre ++ hs), zlen hs)
      /\ (1 <= length pre + length hs + length free')%nat.
  Proof.
    induction fuel as [|fuel IH]; intros pre free Hcap Hf H1; [lia|].
    cbn [retry]. rewrite Hrun. cbn [bind]. unfold emitted.
    destruct (length hs <=? length free)%nat eqn:E.
    - apply Nat.leb_le in E. cbn [c_rows c_size c_count].
      destruct (0 + zlen hs =? -1) eqn:E2; [unfold zlen in E2; lia|].
      cbn [negb]. exists (skipn (length hs) free). split.
      + rewrite zlen_app. reflexivity.
      + rewrite skipn_length. lia.
    - apply Nat.leb_gt in E. cbn [c_rows c_size c_count negb Z.eqb Pos.eqb].
      destruct (grow_app mem (pre ++ firstn (length free) hs)) as (ex & Eg & Hex).
      rewrite Eg, <- app_assoc.
      rewrite app_length, firstn_length in Hex.
      apply IH; try rewrite app_length; try rewrite firstn_length; lia.
  Qed.

  (** The loop over the query items *)
  Lemma query_loop_ok {Q} mem (run : Q -> Z -> list A -> Z -> res collect) fuel :
    forall l index anss,
    Forall2 (fun qi hs => runs (run (fst qi) (snd qi)) hs /\ (length hs < fuel)%nat)
            (combine l (map (fun k => index + k) (iota (length l)))) anss ->
    forall pre free, (1 <= length pre + length free)%nat ->
    exists free', query_loop mem run fuel l index (pre ++ free) (zlen pre) (zlen pre)
      = Ok (pre ++ concat anss ++ free', zlen (pre ++ concat anss)).
  Proof.
    induction l as [|q t IH]; intros index anss H pre free Hcap.
    - simpl in H. inversion H; subst. exists free. simpl. now rewrite app_nil_r.
    - assert (Ei : iota (length (q :: t)) = 0 :: map (fun k => 1 + k) (iota (length t))).
      { unfold iota. cbn [length seq map]. f_equal. rewrite <- seq_shift, map_map, map_map.
        apply map_ext. intros k. lia. }
      rewrite Ei in H. cbn [map combine] in H. rewrite map_map in H.
      inversion H as [|? hs ? anss' (Hr & Hl) Ht]; subst. cbn [fst snd] in *.
      rewrite Z.add_0_r in Hr.
      cbn [query_loop].
      destruct (retry_ok mem _ hs Hr fuel pre free Hcap) as (free' & E & Hc'); [lia|lia|].
      rewrite E. cbn [bind].
      destruct (IH (index + 1) anss') with (pre := pre ++ hs) (free := free') as (free'' & E2).
      { replace (map (fun k => index + 1 + k) (iota (length t)))
          with (map (fun x : Z => index + (1 + x)) (iota (length t)))
          by (apply map_ext; intros; lia). exact Ht. }
      { rewrite app_length. lia. }
      rewrite <- app_assoc in E2.
      replace (zlen pre + zlen hs) with (zlen (pre ++ hs)) by now rewrite zlen_app.
      rewrite E2. exists free''. cbn [concat]. rewrite <- !app_assoc. reflexivity.
  Qed.

  (** Concatenation of the used parts *)
  Lemma sumZ_zlen (parts : list (list A)) : forall acc,
    fold_left Z.add (map zlen parts) acc = acc + zlen (concat parts).
  Proof.
    induction parts as [|p t IH]; intros acc; simpl; [unfold zlen; simpl; lia|].
    rewrite IH, zlen_app. lia.
  Qed.

  Lemma concatenate_ok mem (parts : list (list A * Z)) (used : list (list A)) :
    Forall2 (fun p u => exists free, p = (u ++ free, zlen u)) parts used ->
    concatenate mem parts = Ok (concat used).
  Proof.
    intros H. unfold concatenate, sumZ.
    assert (Es : map snd parts = map zlen used).
    { induction H as [|p u ps us (free & ->) _ IH]; simpl; congruence. }
    rewrite Es, sumZ_zlen. rewrite Z.add_0_l.
    unfold zlen at 1. rewrite Nat2Z.id.
    assert (G : forall done out, length out = length (concat used) ->
      concat_loop parts (zlen done) (done ++ out) = Ok (done ++ concat used)).
    { clear Es. induction H as [|p u ps us (free & ->) _ IH]; intros done out Hl.
      - destruct out; [|discriminate]. reflexivity.
      - cbn [concat_loop]. cbn [concat] in *. rewrite app_length in Hl.
        assert (Esl : slice (u ++ free) 0 (zlen u) = u).
        { unfold slice. simpl skipn. unfold zlen. rewrite Z.sub_0_r, Nat2Z.id.
          rewrite firstn_app, firstn_all, Nat.sub_diag. simpl. apply app_nil_r. }
        rewrite Esl. unfold slice_assign.
        destruct (zlen u =? Z.min (zlen done + zlen u) (zlen (done ++ out)) - zlen done) eqn:E.
        2:{ apply Z.eqb_neq in E. rewrite zlen_app in E. unfold zlen in *. lia. }
        cbn [bind].
        assert (Eto : Z.to_nat (zlen done) = length done) by (unfold zlen; apply Nat2Z.id).
        rewrite Eto.
        rewrite firstn_app, firstn_all, Nat.sub_diag. simpl firstn. rewrite app_nil_r.
        replace (length done + length u)%nat with (length u + length done)%nat by lia.
        rewrite <- skipn_plus. rewrite (skipn_app (length done)), skipn_all, Nat.sub_diag.
        simpl skipn. cbn [app].
        rewrite app_assoc.
        replace (zlen done + zlen u) with (zlen (done ++ u)) by now rewrite zlen_app.
        rewrite IH; [now rewrite <- app_assoc|].
        rewrite skipn_length. lia. }
    apply (G [] (np_empty mem (length (concat used)))).
    apply np_empty_length.
  Qed.
End Collect.

(** np.array_split *)
Lemma split_sizes_concat {A} : forall sizes (l : list A),
  (length l <= fold_right Nat.add 0%nat sizes)%nat -> concat (split_sizes sizes l) = l.
Proof.
  induction sizes as [|n t IH]; intros l H; simpl in *.
  - destruct l; simpl in *; auto; lia.
  - rewrite IH; [apply firstn_skipn|]. rewrite skipn_length. lia.
Qed.

Lemma fold_add_repeat n k : fold_right Nat.add 0%nat (repeat n k) = (k * n)%nat.
Proof. induction k; simpl; lia. Qed.

Lemma array_split_concat {A} (l : list A) k : (1 <= k)%nat -> concat (array_split l k) = l.
Proof.
  intros Hk. unfold array_split. apply split_sizes_concat.
  rewrite fold_right_app, fold_add_repeat.
  assert (G : forall s acc, fold_right Nat.add acc s = (fold_right Nat.add 0%nat s + acc)%nat).
  { induction s; simpl; intros; auto. rewrite IHs. lia. }
  rewrite G, fold_add_repeat.
  pose proof (Nat.div_mod (length l) k). pose proof (Nat.mod_upper_bound (length l) k).
  nia.
Qed.

Lemma array_split_length {A} (l : list A) k : (1 <= k)%nat -> length (array_split l k) = k.
Proof.
  intros Hk. unfold array_split.
  assert (G : forall s (l : list A), length (split_sizes s l) = length s)
    by (induction s; simpl; auto).
  rewrite G, app_length, !repeat_length.
  pose proof (Nat.mod_upper_bound (length l) k). lia.
Qed.

Lemma mapres_ok {A B} (f : A -> res B) l l' :
  Forall2 (fun x y => f x = Ok y) l l' -> mapres f l = Ok l'.
Proof. induction 1 as [|x y l l' E _ IH]; simpl; auto. now rewrite E, IH. Qed.

Lemma mapres_inv {A B} (f : A -> res B) l l' :
  mapres f l = Ok l' -> Forall2 (fun x y => f x = Ok y) l l'.
Proof.
  revert l'. induction l as [|x t IH]; intros l' H; simpl in H.
  - inversion H. constructor.
  - apply bind_ok in H as (y & E & H). apply bind_ok in H as (ys & Es & H).
    inversion H; subst. constructor; auto.
Qed.

Lemma combine_app' {A B} (l1 l2 : list A) (m1 m2 : list B) :
  length l1 = length m1 -> combine (l1 ++ l2) (m1 ++ m2) = combine l1 m1 ++ combine l2 m2.
Proof.
  revert m1. induction l1 as [|x t IH]; intros [|y m] H; simpl in *; try discriminate; auto.
  rewrite IH; auto.
Qed.

(** Chunks: if every item [q] at position [i] answers [ans q i], the chunked
    computation returns the concatenation of all answers in order. *)
Lemma chunked_ok {Q A} (helper : list Q -> Z -> res (list A * Z)) (mem : nat -> nat -> A)
      (good : Q -> Z -> list A -> Prop) :
  (forall l off anss,
     Forall2 (fun qi hs => good (fst qi) (snd qi) hs)
             (combine l (map (fun k => off + k) (iota (length l)))) anss ->
     exists free, helper l off = Ok (concat anss ++ free, zlen (concat anss))) ->
  forall chunks off anss,
  Forall2 (fun qi hs => good (fst qi) (snd qi) hs)
          (combine (concat chunks) (map (fun k => off + k) (iota (length (concat chunks))))) anss ->
  exists parts used,
    mapres (fun co => helper (fst co) (snd co)) (combine chunks (chunk_offsets off chunks)) = Ok parts
    /\ Forall2 (fun p u => exists free, p = (u ++ free, zlen u)) parts used
    /\ concat used = concat anss.
Proof.
  intros Hh. induction chunks as [|c t IH]; intros off anss H.
  - simpl in H. inversion H; subst. exists [], []. simpl. auto.
  - cbn [concat] in H. rewrite app_length in H.
    assert (Ei : forall n m, iota (n + m) = iota n ++ map (fun k => Z.of_nat n + k) (iota m)).
    { intros n m. unfold iota. rewrite seq_app, map_app. f_equal. simpl.
      rewrite map_map. rewrite <- (Nat.add_0_r n) at 1.
      generalize 0%nat. induction m as [|m IHm]; intros s; simpl; auto.
      f_equal; [lia|]. rewrite <- IHm. now rewrite Nat.add_succ_r. }
    rewrite Ei, map_app, map_map in H.
    rewrite combine_app' in H by (rewrite map_length; unfold iota; now rewrite map_length, seq_length).
    apply Forall2_app_inv_l in H as (a1 & a2 & H1 & H2 & ->).
    destruct (Hh c off a1 H1) as (free & Eh).
    destruct (IH (off + zlen c) a2) as (parts & used & Em & HF & Ec).
    { replace (map (fun k => off + zlen c + k) (iota (length (concat t))))
        with (map (fun x : Z => off + (Z.of_nat (length c) + x)) (iota (length (concat t))))
        by (apply map_ext; intros; unfold zlen; lia). exact H2. }
    exists ((concat a1 ++ free, zlen (concat a1)) :: parts), (concat a1 :: used).
    cbn [chunk_offsets combine mapres fst snd]. rewrite Eh. cbn [bind]. rewrite Em. cbn [bind].
    split; auto. split; [constructor; eauto|].
    cbn [concat]. rewrite Ec, concat_app. reflexivity.
Qed.
