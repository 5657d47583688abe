(** When construction fails: an element whose centroid falls into no bucket
    of the root makes construction raise IndexError. *)
From Verif Require Import Base Num MUtils MGeometry MCreation PStack PPartition SpecTree PBuild PBuild2.
Open Scope Z_scope.

Section Fail.
  Context {T : Type} {NT : Num T} {NO : NumOrd T}.
  Notation box := (box T).
  Notation bucket := (bucket T).
  Variable bbc : list box.
  Hypothesis Hfin : Forall fin_box bbc.
  Notation in_range := (in_range bbc).
  Notation ptest := (ptest bbc).

  Lemma lget_end {A} (l : list A) i : zlen l <= i -> lget l i = Err EList.
  Proof.
    intros H. unfold lget, aget. replace (norm_idx (length l) i) with (@None nat); [reflexivity|].
    unfold norm_idx. unfold zlen in H. pose proof (Zle_0_nat (length l)).
    destruct (0 <=? i) eqn:E1; simpl; [|lia].
    destruct (i <? Z.of_nat (length l)) eqn:E2; [lia|].
    destruct (i <? 0) eqn:E3; [lia|]. now rewrite andb_false_r.
  Qed.

  Lemma sort_loop_misses dim mem e : dim = 0 \/ dim = 1 -> forall fuel rest done i p s q,
    i = zlen done + 1 -> Forall in_range s -> (length rest < fuel)%nat ->
    In e s -> Forall (fun b => ptest dim b e = false) rest ->
    sort_loop mem bbc (zlen p + zlen s) dim fuel i (zlen p) (p ++ s ++ q) (done ++ rest) = Err EList.
  Proof.
    intros Hd. induction fuel as [|fuel IH]; intros rest done i p s q Hi Hr Hf He Ht; [lia|].
    cbn [sort_loop].
    assert (Hs : 0 < zlen s).
    { destruct s; [destruct He|]. rewrite zlen_cons. pose proof (zlen_nonneg s). lia. }
    destruct (zlen p =? zlen p + zlen s) eqn:Eq; [apply Z.eqb_eq in Eq; lia|].
    destruct rest as [|b rest].
    - rewrite app_nil_r, lget_end by lia. reflexivity.
    - assert (Ei : i - 1 = zlen done) by lia.
      rewrite lget_mid by auto. cbn [bind].
      rewrite stable_partition_ok by auto. cbn [bind].
      set (ts := filter (ptest dim b) s). set (fs := filter (fun i => negb (ptest dim b i)) s).
      rewrite lset_mid by auto. cbn [bind].
      set (b' := Bucket (bMax b) (bMin b) (bRmin b) (bLmax b) (bindex b)
                        (zlen p + zlen ts - bindex b)).
      assert (Hfr : Forall in_range fs).
      { rewrite Forall_forall in *. intros x Hx. apply Hr. eapply filter_In; eauto. }
      assert (Hend : zlen p + zlen s = zlen (p ++ ts) + zlen fs).
      { rewrite zlen_app. pose proof (filter_split_length (ptest dim b) s) as H.
        unfold zlen. subst ts fs. lia. }
      inversion Ht as [|? ? Ht1 Ht2]; subst.
      assert (Hfe : In e fs) by (apply filter_In; rewrite Ht1; auto).
      replace (p ++ (ts ++ fs) ++ q) with ((p ++ ts) ++ fs ++ q)
        by (rewrite <- !app_assoc; reflexivity).
      replace (zlen p + zlen ts) with (zlen (p ++ ts)) by apply zlen_app.
      rewrite Hend.
      assert (HX : exists rest', (if zlen done + 1 <? zlen (done ++ b' :: rest) then
                   let* b1 := lget (done ++ b' :: rest) (zlen done + 1) in
                   let* bp := lget (done ++ b' :: rest) (zlen done + 1 - 1) in
                   lset (done ++ b' :: rest) (zlen done + 1)
                     (Bucket (bMax b1) (bMin b1) (bRmin b1) (bLmax b1) (bindex bp + bsize bp) (bsize b1))
                 else Ok (done ++ b' :: rest)) = Ok (done ++ b' :: rest')
               /\ length rest' = length rest /\ Forall (fun b => ptest dim b e = false) rest').
      { destruct rest as [|b1 rest].
        - exists []. rewrite zlen_app, zlen_cons, zlen_nil.
          destruct (_ <? _) eqn:E; [lia|]. auto.
        - rewrite zlen_app, !zlen_cons. pose proof (zlen_nonneg rest).
          destruct (_ <? _) eqn:E; [|lia].
          assert (E1 : lget (done ++ b' :: b1 :: rest) (zlen done + 1) = Ok b1).
          { change (done ++ b' :: b1 :: rest) with (done ++ [b'] ++ b1 :: rest). rewrite app_assoc.
            apply lget_mid. rewrite zlen_app. reflexivity. }
          assert (E2 : forall x, lset (done ++ b' :: b1 :: rest) (zlen done + 1) x = Ok (done ++ b' :: x :: rest)).
          { intros x. change (done ++ b' :: b1 :: rest) with (done ++ [b'] ++ b1 :: rest). rewrite app_assoc.
            rewrite lset_mid by (rewrite zlen_app; reflexivity). now rewrite <- app_assoc. }
          rewrite E1. cbn [bind]. rewrite (lget_mid done b' (b1 :: rest)) by lia. cbn [bind]. rewrite E2.
          eexists. split; [reflexivity|]. split; auto. inversion Ht2 as [|? ? Hb1 Hrest]; subst. constructor; auto. }
      destruct HX as (rest' & -> & Hl & Ht'). cbn [bind].
      replace (done ++ b' :: rest') with ((done ++ [b']) ++ rest') by (rewrite <- app_assoc; reflexivity).
      apply IH; auto.
      + rewrite zlen_app. reflexivity.
      + simpl in Hf. lia.
  Qed.

  Lemma make_sorted_buckets_misses g nb dim p s q nd e :
    dim = 0 \/ dim = 1 -> 1 <= nb -> Forall in_range s ->
    nptr nd = zlen p -> nsize nd = zlen s -> In e s -> no_bucket bbc nb dim s e ->
    make_sorted_buckets g bbc nb nd dim (p ++ s ++ q) = Err EList.
  Proof.
    intros Hd Hnb Hr Hp Hs He (bl & Ebl & Hno). unfold make_sorted_buckets.
    rewrite (get_bounds_ok bbc dim p s q) by auto. cbn [bind]. rewrite Ebl. cbn [bind].
    pose proof (make_buckets_length nb bl (GMin bbc dim s)) as Hl.
    destruct (make_buckets nb bl (GMin bbc dim s)) as [|b0 bs] eqn:Em; [simpl in Hl; lia|].
    unfold sort_bbox_indices.
    rewrite (lget_mid [] b0 bs) by reflexivity. cbn [bind].
    rewrite (lset_mid [] b0 bs) by reflexivity. cbn [bind app].
    rewrite Hp, Hs.
    set (b0' := Bucket (bMax b0) (bMin b0) (bRmin b0) (bLmax b0) (zlen p) (bsize b0)).
    pose proof (sort_loop_misses dim (gZ g) e Hd (S (length (b0' :: bs))) (b0' :: bs) [] 1 p s q) as HL.
    simpl app in HL. rewrite HL; auto.
    inversion Hno; subst. constructor; auto.
  Qed.

  (** the root cannot be split *)
  Theorem initialize_misses g fuel n nb cpl e :
    1 <= nb -> cpl < Z.of_nat n -> (length bbc = n) -> (1 <= fuel)%nat ->
    In e (iota n) -> no_bucket bbc nb 0 (iota n) e ->
    initialize g fuel n bbc nb cpl = Err EList.
  Proof.
    intros Hnb Hcpl Hn Hfuel He Hno. unfold initialize.
    assert (Hn1 : 0 <= e < Z.of_nat n) by (now apply iota_in).
    assert (Hl0 : zlen (iota n) = Z.of_nat n) by (unfold zlen; now rewrite iota_length).
    rewrite Hl0.
    pose proof (pessimistic_ge (Z.of_nat n) ltac:(lia)) as Hpe.
    set (N := pessimistic_n_nodes (Z.of_nat n)) in *.
    set (arr := np_empty (gnode g) (Z.to_nat N)).
    assert (Harr : zlen arr = N) by (unfold zlen, arr; rewrite np_empty_length; lia).
    unfold push_node. rewrite aset_pos by lia. cbn [bind].
    change (Z.to_nat 0) with O.
    set (root := create_node 0 (Z.of_nat n) false).
    set (arr0 := list_set arr 0 root).
    unfold build.
    destruct (alloc_rep (gZZ g) (0, 0)) as (st & Est & Hst). rewrite Est. cbn [bind].
    rewrite (stack_loop_list _ _ fuel st 1 [(0, 0)] _ Hst).
    destruct fuel as [|fuel]; [lia|]. cbn [list_loop]. unfold build_visit.
    change (if 0 <? 0 then 0 + 2 else 0) with 0.
    assert (Hg : aget arr0 0 = Ok root).
    { unfold arr0. destruct arr; [rewrite zlen_nil in Harr; lia|]. reflexivity. }
    rewrite Hg. cbn [bind]. unfold root at 1. cbn [nsize create_node].
    destruct (Z.of_nat n <=? cpl) eqn:E; [lia|].
    pose proof (make_sorted_buckets_misses g nb 0 [] (iota n) [] root e (or_introl eq_refl) Hnb) as HM.
    rewrite app_nil_r in HM. simpl app in HM. rewrite HM; auto.
    apply Forall_forall. intros i Hi. apply iota_in in Hi. unfold PPartition.in_range, zlen. lia.
  Qed.
End Fail.
