(** How full the leaves are: proofs about the construction loop. *)
From Verif Require Import Base Num MUtils MGeometry MCreation PStack PPartition SpecTree SpecOcc PBuild PBuild2.

Section Sizes.
  Context {T : Type} {NT : Num T}.
  Notation box := (box T).
  Notation bucket := (bucket T).
  Variable bbc : list box.
  Variable dim : Z.
  Hypothesis Hdim : dim = 0 \/ dim = 1.
  Notation ptest := (ptest bbc dim).
  Notation in_range := (in_range bbc).

  (** number of elements each bucket takes *)
  Fixpoint fit (bs : list bucket) (s : list Z) : list Z :=
    match bs with
    | [] => []
    | b :: bs => zlen (filter (ptest b) s) :: fit bs (filter (fun e => negb (ptest b e)) s)
    end.

  Definition takes (bs : list bucket) (j : nat) (e : Z) : Prop :=
    (exists b, nth_error bs j = Some b /\ ptest b e = true)
    /\ forall k b, (k < j)%nat -> nth_error bs k = Some b -> ptest b e = false.

  Lemma fit_nil bs : fit bs [] = map (fun _ => 0) bs.
  Proof. induction bs as [|b bs IH]; cbn; auto. now rewrite IH. Qed.

  Lemma sort_loop_sizes mem fuel : forall rest done i p s q bbi' bs',
    i = zlen done + 1 ->
    match rest with [] => True | b :: _ => bindex b = zlen p end ->
    Forall (fun b => bsize b = 0) rest ->
    Forall in_range s ->
    sort_loop mem bbc (zlen p + zlen s) dim fuel i (zlen p) (p ++ s ++ q) (done ++ rest) = Ok (bbi', bs') ->
    map bsize bs' = map bsize done ++ fit rest s /\ Forall (fun e => exists j, takes rest j e) s.
  Proof.
    induction fuel as [|fuel IH]; intros rest done i p s q bbi' bs' Hi Hidx Hz Hr E.
    - cbn [sort_loop] in E. destruct (zlen p =? zlen p + zlen s) eqn:Eq; [|discriminate]. apply Z.eqb_eq in Eq.
      assert (s = []) by (destruct s; auto; rewrite zlen_cons in Eq; pose proof (zlen_nonneg s); lia). subst s.
      inversion E; subst. rewrite map_app, fit_nil. split; [|constructor]. f_equal.
      clear - Hz. induction Hz as [|b l Hb _ IH]; cbn; congruence.
    - cbn [sort_loop] in E. destruct (zlen p =? zlen p + zlen s) eqn:Eq.
      + apply Z.eqb_eq in Eq.
        assert (s = []) by (destruct s; auto; rewrite zlen_cons in Eq; pose proof (zlen_nonneg s); lia). subst s.
        inversion E; subst. rewrite map_app, fit_nil. split; [|constructor]. f_equal.
        clear - Hz. induction Hz as [|b l Hb _ IH]; cbn; congruence.
      + apply Z.eqb_neq in Eq. destruct rest as [|b rest].
        { exfalso. rewrite app_nil_r in E. unfold lget, aget in E.
          replace (norm_idx (length done) (i - 1)) with (@None nat) in E; [discriminate|].
          unfold norm_idx. unfold zlen in Hi.
          destruct (0 <=? i - 1) eqn:E1; simpl; [|lia].
          destruct (i - 1 <? Z.of_nat (length done)) eqn:E2; [lia|].
          destruct (i - 1 <? 0) eqn:E3; [lia|]. now rewrite andb_false_r. }
        assert (Ei : i - 1 = zlen done) by lia.
        rewrite lget_mid in E by auto. cbn [bind] in E.
        rewrite stable_partition_ok in E by auto. cbn [bind] in E.
        set (ts := filter (ptest b) s) in *. set (fs := filter (fun i => negb (ptest b i)) s) in *.
        rewrite lset_mid in E by auto. cbn [bind] in E.
        set (b' := Bucket (bMax b) (bMin b) (bRmin b) (bLmax b) (bindex b) (zlen p + zlen ts - bindex b)) in *.
        assert (Hb' : bsize b' = zlen ts) by (simpl in *; lia).
        assert (Hfr : Forall in_range fs).
        { rewrite Forall_forall in *. intros x Hx. apply Hr. eapply filter_In; eauto. }
        assert (Hend : zlen p + zlen s = zlen (p ++ ts) + zlen fs).
        { rewrite zlen_app. pose proof (filter_split_length (ptest b) s) as H. unfold zlen. subst ts fs. lia. }
        inversion Hz as [|? ? Hz1 Hz2]; subst.
        replace (p ++ (ts ++ fs) ++ q) with ((p ++ ts) ++ fs ++ q) in E by (rewrite <- !app_assoc; reflexivity).
        replace (zlen p + zlen ts) with (zlen (p ++ ts)) in E by apply zlen_app.
        rewrite Hend in E.
        assert (STEP : forall rest' : list bucket, fit rest' fs = fit rest fs -> (forall j e, takes rest' j e -> takes rest j e) ->
          map bsize bs' = map bsize (done ++ [b']) ++ fit rest' fs /\ Forall (fun e => exists j, takes rest' j e) fs ->
          map bsize bs' = map bsize done ++ fit (b :: rest) s /\ Forall (fun e => exists j, takes (b :: rest) j e) s).
        { intros rest' Hfit Htk (H1 & H2). split.
          - rewrite H1, map_app, Hfit, <- app_assoc. cbn [map app fit]. rewrite Hb'. reflexivity.
          - rewrite Forall_forall in *. intros e He. destruct (ptest b e) eqn:Eb.
            + exists O. split; [exists b; auto|]. intros k b0 Hk. lia.
            + destruct (H2 e) as (j & Hj); [apply filter_In; now rewrite Eb|]. apply Htk in Hj as ((b0 & Hb0 & Hp0) & Hk).
              exists (S j). split; [exists b0; auto|]. intros [|k] b1 Hlt Hn; [inversion Hn; now subst|].
              eapply Hk; eauto. lia. }
        destruct rest as [|b1 rest].
        * replace (zlen done + 1 <? zlen (done ++ [b'])) with false in E
            by (rewrite zlen_app, zlen_cons, zlen_nil; symmetry; apply Z.ltb_ge; lia).
          cbn [bind] in E. apply (STEP []); auto.
          apply (IH [] (done ++ [b']) (zlen done + 1 + 1) (p ++ ts) fs q bbi' bs'); auto.
          -- rewrite zlen_app, zlen_cons, zlen_nil. lia.
          -- rewrite app_nil_r. exact E.
        * replace (zlen done + 1 <? zlen (done ++ b' :: b1 :: rest)) with true in E
            by (rewrite zlen_app, !zlen_cons; pose proof (zlen_nonneg rest); symmetry; apply Z.ltb_lt; lia).
          replace (done ++ b' :: b1 :: rest) with ((done ++ [b']) ++ b1 :: rest) in E by (rewrite <- app_assoc; reflexivity).
          rewrite (lget_mid (done ++ [b'])) in E by (rewrite zlen_app; reflexivity).
          cbn [bind] in E.
          replace ((done ++ [b']) ++ b1 :: rest) with (done ++ b' :: b1 :: rest) in E by (rewrite <- app_assoc; reflexivity).
          rewrite (lget_mid done) in E by lia. cbn [bind] in E.
          replace (done ++ b' :: b1 :: rest) with ((done ++ [b']) ++ b1 :: rest) in E by (rewrite <- app_assoc; reflexivity).
          rewrite (lset_mid (done ++ [b'])) in E by (rewrite zlen_app; reflexivity).
          cbn [bind] in E.
          set (b1' := Bucket (bMax b1) (bMin b1) (bRmin b1) (bLmax b1) (bindex b' + bsize b') (bsize b1)) in *.
          inversion Hz2 as [|? ? Hz3 Hz4]; subst.
          apply (STEP (b1' :: rest)).
          -- reflexivity.
          -- intros j e ((b0 & Hb0 & Hp0) & Hk). split.
             ++ destruct j as [|j]; cbn in Hb0; [inversion Hb0; subst b0; exists b1; auto|exists b0; auto].
             ++ intros [|k] b2 Hlt Hn; cbn in Hn.
                ** inversion Hn; subst b2. exact (Hk O b1' Hlt eq_refl).
                ** exact (Hk (S k) b2 Hlt Hn).
          -- apply (IH (b1' :: rest) (done ++ [b']) (zlen done + 1 + 1) (p ++ ts) fs q bbi' bs'); auto.
             ++ rewrite zlen_app, zlen_cons, zlen_nil. lia.
             ++ cbn [bindex b1' b']. rewrite zlen_app. simpl in *. lia.
  Qed.

  Lemma filter_le {A} (f : A -> bool) l : zlen (filter f l) <= zlen l.
  Proof. unfold zlen. pose proof (filter_split_length f l). lia. Qed.
  Lemma filter_full {A} (f : A -> bool) l : zlen (filter f l) = zlen l -> forall x, In x l -> f x = true.
  Proof.
    induction l as [|y l IH]; cbn [filter In]; [tauto|]. destruct (f y) eqn:E; rewrite ?zlen_cons.
    - intros H x [<-|Hx]; auto. apply IH; auto. lia.
    - pose proof (filter_le f l). lia.
  Qed.
  Lemma filter_all {A} (f : A -> bool) l : (forall x, In x l -> f x = true) -> filter f l = l.
  Proof. induction l as [|y l IH]; cbn; intros H; auto. rewrite H by auto. f_equal. auto. Qed.

  Lemma fit_le bs : forall s n, In n (fit bs s) -> n <= zlen s.
  Proof.
    induction bs as [|b bs IH]; intros s n; cbn; [tauto|]. intros [<-|H]; [apply filter_le|].
    apply IH in H. pose proof (filter_le (fun e => negb (ptest b e)) s). lia.
  Qed.

  Lemma fit_full bs : forall s j, nth_error (fit bs s) j = Some (zlen s) -> s <> [] -> forall e, In e s -> takes bs j e.
  Proof.
    induction bs as [|b bs IH]; intros s [|j] H Hne e He; try discriminate; cbn in H.
    - inversion H as [H1]. split; [exists b; split; auto; eapply filter_full; eauto|]. intros; lia.
    - pose proof (fit_le _ _ _ (nth_error_In _ _ H)) as H1.
      pose proof (filter_le (fun e => negb (ptest b e)) s) as H2.
      assert (H3 : forall x, In x s -> negb (ptest b x) = true) by (apply filter_full; lia).
      rewrite (filter_all _ s H3) in H. destruct (IH s j H Hne e He) as ((b0 & Hb0 & Hp0) & Hk).
      split; [exists b0; auto|]. intros [|k] b1 Hlt Hn; [inversion Hn; subst|eapply Hk; eauto; lia].
      specialize (H3 e He). now destruct (ptest b1 e).
  Qed.

  Lemma fit_conv bs : forall s j, s <> [] -> (forall e, In e s -> takes bs j e) -> nth_error (fit bs s) j = Some (zlen s).
  Proof.
    induction bs as [|b bs IH]; intros s j Hne H.
    - destruct s as [|e s]; [congruence|]. destruct (H e (or_introl eq_refl)) as ((b0 & Hb0 & _) & _). destruct j; discriminate.
    - destruct j as [|j]; cbn.
      + rewrite filter_all; auto. intros e He. destruct (H e He) as ((b0 & Hb0 & Hp0) & _). inversion Hb0; now subst.
      + assert (H3 : forall x, In x s -> negb (ptest b x) = true).
        { intros e He. destruct (H e He) as (_ & Hk). now rewrite (Hk O b ltac:(lia) eq_refl). }
        rewrite (filter_all _ s H3). apply IH; auto. intros e He. destruct (H e He) as ((b0 & Hb0 & Hp0) & Hk).
        split; [exists b0; auto|]. intros k b1 Hlt Hn. apply (Hk (S k)); auto. lia.
  Qed.

  Lemma takes_inj bs j j' e : takes bs j e -> takes bs j' e -> j = j'.
  Proof.
    intros ((b & E & P) & K) ((b' & E' & P') & K'). destruct (Nat.lt_trichotomy j j') as [H|[H|H]]; auto.
    - rewrite (K' j b H E) in P. discriminate.
    - rewrite (K j' b' H E') in P'. discriminate.
  Qed.

  (** all in one bucket, or two in different ones *)
  Lemma one_or_two bs s : s <> [] -> Forall (fun e => exists j, takes bs j e) s ->
    (exists j, (forall e, In e s -> takes bs j e) /\ In (zlen s) (fit bs s))
    \/ (~ In (zlen s) (fit bs s)
        /\ exists i j e e', i <> j /\ In e s /\ In e' s /\ takes bs i e /\ takes bs j e').
  Proof.
    intros Hne HF. destruct (in_dec Z.eq_dec (zlen s) (fit bs s)) as [Hin|Hin].
    - left. apply In_nth_error in Hin as (j & Hj). exists j. split; [now apply fit_full|]. eapply nth_error_In; eauto.
    - right. split; auto. rewrite Forall_forall in HF. destruct s as [|e s]; [congruence|].
      destruct (HF e (or_introl eq_refl)) as (i & Hi).
      assert (D : forall l, (forall x, In x l -> exists j, takes bs j x) ->
        (forall x, In x l -> takes bs i x) \/ exists j e', i <> j /\ In e' l /\ takes bs j e').
      { induction l as [|x l IH]; intros Hl; [left; intros x []|].
        destruct (Hl x (or_introl eq_refl)) as (j & Hj). destruct (Nat.eq_dec i j) as [->|Hn].
        - destruct IH as [H|(j' & e' & H1 & H2 & H3)].
          + intros y Hy. apply Hl. now right.
          + left. intros y [<-|Hy]; auto.
          + right. exists j', e'. split; auto. split; auto. now right.
        - right. exists j, x. split; auto. split; auto. now left. }
      destruct (D (e :: s) HF) as [H|(j & e' & H1 & H2 & H3)].
      + exfalso. apply Hin. eapply nth_error_In. apply fit_conv; eauto.
      + exists i, j, e, e'. split; auto. split; [now left|auto].
  Qed.

  (** merging keeps the sizes other than zero *)
  Lemma merge_empty_sizes : forall rest prev, bsize prev <> 0 ->
    map bsize (merge_empty prev rest) = bsize prev :: filter (fun n => negb (n =? 0)) (map (@bsize T) rest).
  Proof.
    induction rest as [|b rest IH]; intros prev Hp; cbn [merge_empty map filter]; auto.
    destruct (bsize b =? 0) eqn:E; cbn [negb].
    - rewrite IH; auto.
    - cbn [map]. rewrite IH; auto. apply Z.eqb_neq in E. auto.
  Qed.
  Lemma drop_empty_front_sizes : forall rest b0 bs, drop_empty_front b0 rest = Ok bs ->
    filter (fun n => negb (n =? 0)) (map (@bsize T) bs) = filter (fun n => negb (n =? 0)) (map (@bsize T) (b0 :: rest))
    /\ match bs with [] => True | b :: _ => bsize b <> 0 end.
  Proof.
    induction rest as [|b rest IH]; intros b0 bs E; cbn [drop_empty_front] in E; destruct (bsize b0 =? 0) eqn:E0; try discriminate.
    - inversion E; subst. split; auto. now apply Z.eqb_neq.
    - apply IH in E as (H1 & H2). split; auto. rewrite H1. cbn [map filter]. rewrite E0. reflexivity.
    - inversion E; subst. split; auto. now apply Z.eqb_neq.
  Qed.
  Lemma merge_buckets_sizes bs bs' : merge_buckets bs = Ok bs' ->
    map bsize bs' = filter (fun n => negb (n =? 0)) (map (@bsize T) bs).
  Proof.
    unfold merge_buckets. destruct bs as [|b0 rest]; [discriminate|].
    destruct (drop_empty_front b0 rest) as [l|] eqn:E; [|discriminate]. cbn [bind].
    apply drop_empty_front_sizes in E as (H1 & H2). destruct l as [|b1 r1]; [discriminate|]. intros X; inversion X; subst.
    rewrite merge_empty_sizes by auto. rewrite <- H1. cbn [map filter].
    destruct (bsize b1 =? 0) eqn:E; [apply Z.eqb_eq in E; contradiction|]. reflexivity.
  Qed.

  (** bucket_bounds keeps the sizes *)
  Lemma map_set {A B} (f : A -> B) : forall (l : list A) n v, map f (list_set l n v) = list_set (map f l) n (f v).
  Proof. induction l as [|x l IH]; intros [|n] v; cbn; auto. now rewrite IH. Qed.
  Lemma set_same {A} : forall (l : list A) n v, nth_error l n = Some v -> list_set l n v = l.
  Proof. induction l as [|x l IH]; intros [|n] v H; cbn in *; try discriminate; [congruence|]. now rewrite IH. Qed.
  Lemma bucket_bounds_sizes nb bbi bs bs' : bucket_bounds nb bbc bbi dim bs = Ok bs' -> map bsize bs' = map bsize bs.
  Proof.
    unfold bucket_bounds, for_range. generalize (Z.to_nat (nb - 0)) as m.
    assert (G : forall m i bs, 0 <= i -> for_loop m i
      (fun (i : Z) (buckets : list bucket) =>
         let* b := lget buckets i in
         let* rl := get_bounds (bindex b) (bsize b) bbc bbi dim in
         let '(Rmin, Lmax) := rl in
         lset buckets i (Bucket (bMax b) (bMin b) Rmin Lmax (bindex b) (bsize b))) bs = Ok bs' ->
      map bsize bs' = map bsize bs).
    { induction m as [|m IH]; intros i bs0 Hi E; cbn [for_loop] in E; [congruence|].
      destruct (lget bs0 i) as [b|] eqn:Eb; [|discriminate]. cbn [bind] in E.
      destruct (get_bounds _ _ _ _ _) as [[R L]|]; [|discriminate]. cbn [bind] in E.
      destruct (lset _ _ _) as [bs1|] eqn:Es; [|discriminate]. cbn [bind] in E.
      rewrite (IH (i + 1) bs1) by (auto; lia).
      apply lset_ok in Es. apply lget_ok in Eb.
      pose proof (aget_bound _ _ _ Hi Eb) as Hlt. rewrite aset_pos in Es by lia. inversion Es; subst.
      rewrite map_set. apply set_same. cbn [bsize]. rewrite nth_error_map.
      destruct (aget_ok_pos bs0 i) as (b' & E1 & E2); [lia|]. rewrite E1 in Eb. inversion Eb; subst. now rewrite E2. }
    intros m. apply G. lia.
  Qed.

  Lemma make_sorted_sizes g nb p s q nd R L bl bbi' bs' :
    1 <= nb -> Forall in_range s -> nptr nd = zlen p -> nsize nd = zlen s ->
    make_sorted_buckets g bbc nb nd dim (p ++ s ++ q) = Ok (R, L, bl, bbi', bs') ->
    map bsize bs' = fit (make_buckets nb bl R) s
    /\ Forall (fun e => exists j, takes (make_buckets nb bl R) j e) s.
  Proof.
    intros Hnb Hr Hp Hs E. unfold make_sorted_buckets in E.
    destruct (get_bounds _ _ _ _ _) as [[R0 L0]|]; [|discriminate]. cbn [bind] in E.
    destruct (ndiv _ _) as [bl0|]; [|discriminate]. cbn [bind] in E.
    destruct (sort_bbox_indices _ _ _ _ _ _) as [[bbi1 bs1]|] eqn:Es; [|discriminate]. cbn [bind] in E.
    destruct (bucket_bounds _ _ _ _ _) as [bs2|] eqn:Eb; [|discriminate]. cbn [bind] in E.
    inversion E; subst R0 L0 bl0 bbi1 bs2. clear E. apply bucket_bounds_sizes in Eb. rewrite Eb. clear Eb.
    pose proof (make_buckets_size nb bl R) as Hz. pose proof (make_buckets_length nb bl R) as Hl.
    destruct (make_buckets nb bl R) as [|b0 bs] eqn:Em; [cbn in Hl; lia|].
    unfold sort_bbox_indices in Es.
    rewrite (lget_mid [] b0 bs) in Es by reflexivity. cbn [bind] in Es.
    rewrite (lset_mid [] b0 bs) in Es by reflexivity. cbn [bind app] in Es.
    rewrite Hp, Hs in Es. inversion Hz; subst.
    set (b0' := Bucket (bMax b0) (bMin b0) (bRmin b0) (bLmax b0) (zlen p) (bsize b0)) in *.
    apply (sort_loop_sizes (gZ g) _ (b0' :: bs) [] 1 p s q) in Es as (H3 & H4); auto.
    split; [exact H3|]. eapply Forall_impl; [|exact H4]. cbn beta. intros e (j & (b & Hb & Hpb) & Hk). exists j. split.
    - destruct j as [|j]; cbn in Hb; [inversion Hb; subst; exists b0; auto|exists b; auto].
    - intros [|k] b1 Hlt Hn; cbn in Hn; [inversion Hn; subst; exact (Hk O b0' Hlt eq_refl)|exact (Hk (S k) b1 Hlt Hn)].
  Qed.
End Sizes.

Section Occ.
  Context {T : Type} {NT : Num T} {NO : NumOrd T}.
  Notation box := (box T).
  Notation bucket := (bucket T).
  Notation node := (node T).
  Notation bstate := (@bstate T).
  Variable bbc : list box.
  Hypothesis Hfin : Forall fin_box bbc.
  Notation in_range := (in_range bbc).
  Variable g : garbage T.
  Variables nb cpl : Z.
  Hypothesis Hnb : 1 <= nb.
  Hypothesis Hcpl : 1 <= cpl.
  Notation visit := (build_visit g bbc nb cpl).
  Notation one := (in_one_part nb bbc).
  Notation two := (in_two_parts nb bbc).

  Ltac sb := cbn [st_nodes st_node_index st_bbi nchild nptr nsize ndim nLmax nRmin
                  set_child set_bounds set_dim create_node] in *.

  (** ** Permuting a range *)
  Lemma extends_perm bbi bbi' a b d lo hi : PermRange bbi bbi' a b ->
    extends bbc bbi a b d lo hi -> extends bbc bbi' a b d lo hi.
  Proof.
    intros P (H1 & H2 & H3 & H4).
    split; [eapply range_all_perm; eauto|]. split; [eapply range_ex_perm; eauto|].
    split; [eapply range_all_perm; eauto|eapply range_ex_perm; eauto].
  Qed.
  Lemma one_perm bbi bbi' a b d : PermRange bbi bbi' a b -> one bbi a b d -> one bbi' a b d.
  Proof.
    intros P (lo & hi & len & i & H1 & H2 & H3). exists lo, hi, len, i.
    split; [eapply extends_perm; eauto|]. split; auto. eapply range_all_perm; eauto.
  Qed.
  Lemma two_perm bbi bbi' a b d : PermRange bbi bbi' a b -> two bbi a b d -> two bbi' a b d.
  Proof.
    intros P (lo & hi & len & i & j & H1 & H2 & H3 & H4 & H5). exists lo, hi, len, i, j.
    split; [eapply extends_perm; eauto|]. split; auto. split; auto. split; eapply range_ex_perm; eauto.
  Qed.
  Lemma full_perm bbi bbi' nd : PermRange bbi bbi' (nptr nd) (nptr nd + nsize nd) ->
    node_full nb cpl bbc bbi nd -> node_full nb cpl bbc bbi' nd.
  Proof.
    intros P (H1 & H2). split.
    - intros Hc. destruct (H1 Hc) as [H|H]; [now left|right]. intros d. eapply one_perm; eauto.
    - intros Hc. destruct (H2 Hc) as (H & [H3|H3]); split; auto. right. eapply two_perm; eauto.
  Qed.
  Lemma PermRange_same {A} (l l' : list A) a b : 0 <= a <= b -> b <= zlen l -> zlen l' = zlen l ->
    (forall i, a <= i < b -> aget l' i = aget l i) -> exists l0, PermRange l l0 a b /\ (forall i, a <= i < b -> aget l' i = aget l0 i).
  Proof. intros H1 H2 H3 H4. exists l. split; auto. apply PermRange_refl; lia. Qed.

  (** the same when the entries of the range do not change *)
  Lemma range_ex_same (bbi bbi' : list Z) a b P : (forall i, a <= i < b -> aget bbi' i = aget bbi i) ->
    range_ex bbc bbi a b P -> range_ex bbc bbi' a b P.
  Proof. intros HE (i & e & bx & Hi & He & H). exists i, e, bx. rewrite HE by auto. auto. Qed.
  Lemma extends_same bbi bbi' a b d lo hi : (forall i, a <= i < b -> aget bbi' i = aget bbi i) ->
    extends bbc bbi a b d lo hi -> extends bbc bbi' a b d lo hi.
  Proof.
    intros P (H1 & H2 & H3 & H4).
    split; [eapply range_all_same; eauto|]. split; [eapply range_ex_same; eauto|].
    split; [eapply range_all_same; eauto|eapply range_ex_same; eauto].
  Qed.
  Lemma full_same bbi bbi' nd : (forall i, nptr nd <= i < nptr nd + nsize nd -> aget bbi' i = aget bbi i) ->
    node_full nb cpl bbc bbi nd -> node_full nb cpl bbc bbi' nd.
  Proof.
    intros P (H1 & H2). split.
    - intros Hc. destruct (H1 Hc) as [H|H]; [now left|right]. intros d.
      destruct (H d) as (lo & hi & len & i & K1 & K2 & K3). exists lo, hi, len, i.
      split; [eapply extends_same; eauto|]. split; auto. eapply range_all_same; eauto.
    - intros Hc. destruct (H2 Hc) as (H & [H3|H3]); split; auto. right.
      destruct H3 as (lo & hi & len & i & j & K1 & K2 & K3 & K4 & K5). exists lo, hi, len, i, j.
      split; [eapply extends_same; eauto|]. split; auto. split; auto. split; eapply range_ex_same; eauto.
  Qed.

  (** ** Buckets and parts *)
  Lemma ptest_part bl R d j e b bx : nth_error (make_buckets nb bl R) j = Some b -> aget bbc e = Ok bx ->
    ptest bbc (b2z d) b e = in_part R bl (Z.of_nat j) (centre d bx).
  Proof.
    intros Hj Eb. unfold make_buckets in Hj. rewrite nth_error_map in Hj.
    destruct (nth_error (iota (Z.to_nat nb)) j) as [i|] eqn:Ei; [|discriminate]. cbn in Hj. inversion Hj; subst b. clear Hj.
    assert (i = Z.of_nat j).
    { pose proof (nth_error_Some (iota (Z.to_nat nb)) j) as HS. rewrite Ei in HS.
      assert (Hlt : (j < length (iota (Z.to_nat nb)))%nat) by (apply HS; discriminate). rewrite iota_length in Hlt.
      rewrite iota_nth in Ei by auto. congruence. }
    subst i. unfold ptest, in_bucket. rewrite Eb. cbn [bMin bMax]. unfold in_part, centre, centroid.
    rewrite <- side_lo_b, <- side_hi_b. reflexivity.
  Qed.
  Lemma takes_part bl R d j e bx : takes bbc (b2z d) (make_buckets nb bl R) j e -> aget bbc e = Ok bx ->
    part_is nb R bl (Z.of_nat j) (centre d bx).
  Proof.
    intros ((b & Hj & Hp) & Hk) Eb.
    assert (Hlt : (j < length (make_buckets nb bl R))%nat) by (apply nth_error_Some; congruence).
    rewrite make_buckets_length in Hlt. split; [lia|]. split; [rewrite <- (ptest_part bl R d j e b bx); auto|].
    intros k Hki. destruct (nth_error (make_buckets nb bl R) (Z.to_nat k)) as [b'|] eqn:Ek.
    - specialize (Hk (Z.to_nat k) b' ltac:(lia) Ek). rewrite (ptest_part bl R d (Z.to_nat k) e b' bx) in Hk by auto.
      rewrite Z2Nat.id in Hk by lia. exact Hk.
    - apply nth_error_None in Ek. rewrite make_buckets_length in Ek. lia.
  Qed.

  Lemma in_range_box e : in_range e -> exists bx, aget bbc e = Ok bx.
  Proof. intros H. destruct (aget_ok_pos bbc e H) as (b & E & _). eauto. Qed.

  Lemma extends_ok d p s q : s <> [] -> Forall in_range s ->
    extends bbc (p ++ s ++ q) (zlen p) (zlen p + zlen s) d (GMin bbc (b2z d) s) (GMax bbc (b2z d) s).
  Proof.
    intros Hne Hr. split; [|split; [|split]].
    - intros i e bx Hi. rewrite side_lo_b. revert i e bx Hi. apply range_all_lo. apply gmin_spec; auto. apply fin_fmax.
    - apply range_ex_lo_side. apply range_ex_lo; auto. apply GMin_att; auto.
    - intros i e bx Hi. rewrite side_hi_b. revert i e bx Hi. apply range_all_hi. apply gmax_spec; auto. apply fin_fmin.
    - apply range_ex_hi_side. apply range_ex_hi; auto. apply GMax_att; auto.
  Qed.

  Lemma one_ok d p s q bl j : s <> [] -> Forall in_range s ->
    ndiv (nsub (GMax bbc (b2z d) s) (GMin bbc (b2z d) s)) (nofZ nb) = Ok bl ->
    (forall e, In e s -> takes bbc (b2z d) (make_buckets nb bl (GMin bbc (b2z d) s)) j e) ->
    one (p ++ s ++ q) (zlen p) (zlen p + zlen s) d.
  Proof.
    intros Hne Hr Hbl Ht. exists (GMin bbc (b2z d) s), (GMax bbc (b2z d) s), bl, (Z.of_nat j).
    split; [now apply extends_ok|]. split; auto.
    intros i e bx Hi He Hb. destruct (aget_app p s q i Hi) as (e' & E & Hin).
    rewrite E in He. inversion He; subst e'. eapply takes_part; eauto.
  Qed.
  Lemma two_ok d p s q bl i j e e' : s <> [] -> Forall in_range s ->
    ndiv (nsub (GMax bbc (b2z d) s) (GMin bbc (b2z d) s)) (nofZ nb) = Ok bl ->
    i <> j -> In e s -> In e' s ->
    takes bbc (b2z d) (make_buckets nb bl (GMin bbc (b2z d) s)) i e ->
    takes bbc (b2z d) (make_buckets nb bl (GMin bbc (b2z d) s)) j e' ->
    two (p ++ s ++ q) (zlen p) (zlen p + zlen s) d.
  Proof.
    intros Hne Hr Hbl Hij He He' Hi Hj. exists (GMin bbc (b2z d) s), (GMax bbc (b2z d) s), bl, (Z.of_nat i), (Z.of_nat j).
    split; [now apply extends_ok|]. split; auto. split; [lia|].
    rewrite Forall_forall in Hr. split.
    - destruct (aget_app_in p s q e He) as (n & Hn & E). destruct (in_range_box e (Hr e He)) as (bx & Eb).
      exists n, e, bx. repeat split; auto; try lia; eapply takes_part; eauto.
    - destruct (aget_app_in p s q e' He') as (n & Hn & E). destruct (in_range_box e' (Hr e' He')) as (bx & Eb).
      exists n, e', bx. repeat split; auto; try lia; eapply takes_part; eauto.
  Qed.

  (** ** One round *)
  Definition Occ (nodes : list node) (bbi : list Z) (lo hi i : Z) : Prop :=
    exists nd, aget nodes i = Ok nd /\ lo <= nptr nd /\ nptr nd + nsize nd <= hi /\ node_full nb cpl bbc bbi nd.

  Lemma visit_occ s idx d dm lo hi s' l :
    Inv bbc s -> Fresh s idx d lo hi -> b2z dm = dimof d ->
    st_node_index s + 2 * (hi - lo) - 2 <= zlen (st_nodes s) ->
    (d < 0 -> cpl < hi - lo /\ one (st_bbi s) lo hi (negb dm)) ->
    visit (idx, d) s = Ok (Next s' l) ->
    match l with
    | [] => forall i, i = idx \/ st_node_index s <= i < st_node_index s' -> Occ (st_nodes s') (st_bbi s') lo hi i
    | [(i, d')] => cpl < hi - lo /\ one (st_bbi s') lo hi dm /\ b2z (negb dm) = dimof d'
    | _ => forall nd, aget (st_nodes s') idx = Ok nd -> cpl < hi - lo /\ two (st_bbi s') lo hi (ndim nd)
    end.
  Proof.
    destruct s as [nodes k bbi]. intros (Hk & Hnd & Hrng) (Hidx & Hlo & Hhi & Hd & nd & End & Hch & Hptr & Hsz & Hdim) Hdm Hbud Hflag.
    sb. unfold build_visit. fold (dimof d). rewrite End. cbn [bind].
    destruct (nsize nd <=? cpl) eqn:Ecpl.
    { intros X. inversion X; subst. sb. apply Z.leb_le in Ecpl. intros i [-> | Hi]; [|lia].
      exists nd. split; auto. split; [lia|]. split; [lia|]. split; [now left|]. intros C. contradiction. }
    apply Z.leb_gt in Ecpl.
    assert (Edm : ndim nd = dm) by (destruct (ndim nd), dm; cbn in *; congruence || lia).
    rewrite <- Hdm.
    assert (Hdim01 : b2z dm = 0 \/ b2z dm = 1) by (destruct dm; cbn; auto).
    destruct (split_at bbi lo hi) as (p & sl & q & Ebbi & Hp & Hpe); [lia|lia|].
    subst bbi. assert (Hsl : zlen sl = hi - lo) by lia.
    assert (Hrs : Forall in_range sl).
    { apply Forall_app in Hrng as (_ & Hr). apply Forall_app in Hr as (Hr & _). auto. }
    destruct (make_sorted_buckets_ok bbc g nb (b2z dm) p sl q nd Hdim01 Hnb Hrs)
      as [(er & E & Her)|(bl & sl' & bs & E & Ebl & Hperm & Hseg & Hlim)]; try lia;
      rewrite E; cbn [bind]; [discriminate|].
    destruct (make_sorted_sizes bbc (b2z dm) Hdim01 g nb p sl q nd _ _ _ _ _ Hnb Hrs ltac:(lia) ltac:(lia) E) as (Hsz1 & Htk).
    assert (HPR : PermRange (p ++ sl ++ q) (p ++ sl' ++ q) lo hi).
    { exists p, sl, sl', q. auto. }
    assert (Hne : sl <> []) by (intros ->; rewrite zlen_nil in Hsl; lia).
    destruct ((cpl =? 1) && (nsize nd =? 2)) eqn:E2.
    { apply andb_true_iff in E2 as (E1 & E2). apply Z.eqb_eq in E1. apply Z.eqb_eq in E2.
      rewrite (update_node_ok _ _ _ nd) by (auto; lia). cbn [bind].
      set (nd1 := set_bounds nd (GMax bbc (b2z dm) sl) (GMin bbc (b2z dm) sl)).
      set (lc := create_node (nptr nd) 1 (b2z dm =? 0)).
      set (rc := create_node (nptr nd + 1) 1 (b2z dm =? 0)).
      destruct (add_children_ok (list_set nodes (Z.to_nat idx) nd1) idx k lc rc nd1)
        as (nodes' & Eadd & Hlen & Hi & Hk1 & Hk2 & Hoth).
      - lia.
      - rewrite zlen_set. lia.
      - apply aget_set_eq. lia.
      - rewrite Eadd. cbn [bind]. intros X. inversion X; subst s' l. sb.
        intros i Hi'. assert (Hcs : i = idx \/ i = k \/ i = k + 1) by lia. destruct Hcs as [-> | [-> | ->]].
        + exists (set_child nd1 k). split; auto. unfold nd1. sb. split; [lia|]. split; [lia|]. split; sb; [intros C; lia|].
          intros _. split; [lia|]. left; auto.
        + exists lc. split; auto. unfold lc. sb. split; [lia|]. split; [lia|]. split; sb; [intros _; left; lia|intros C; contradiction].
        + exists rc. split; auto. unfold rc. sb. split; [lia|]. split; [lia|]. split; sb; [intros _; left; lia|intros C; contradiction]. }
    assert (Hne' : sl' <> []).
    { intros ->. apply Permutation_sym, Permutation_nil in Hperm. congruence. }
    destruct (merge_buckets_ok bbc (b2z dm) (zlen p) bs sl' Hseg Hne') as (bs' & Em & Hseg' & Hpos).
    rewrite Em. cbn [bind]. pose proof (merge_buckets_sizes _ _ Em) as Hsz2. rewrite Hsz1 in Hsz2.
    assert (Hex : existsb (fun b => bsize b =? nsize nd) bs' = true <-> In (zlen sl) (fit bbc (b2z dm) (make_buckets nb bl (GMin bbc (b2z dm) sl)) sl)).
    { rewrite existsb_exists. split.
      - intros (b & Hb & Hbs). apply Z.eqb_eq in Hbs. apply (in_map bsize) in Hb. rewrite Hsz2 in Hb.
        apply filter_In in Hb as (Hb & _). rewrite Hbs in Hb. replace (zlen sl) with (nsize nd) by lia. exact Hb.
      - intros H. assert (H' : In (zlen sl) (map bsize bs')).
        { rewrite Hsz2. apply filter_In. split; auto. apply negb_true_iff, Z.eqb_neq. lia. }
        apply in_map_iff in H' as (b & Hb & Hin). exists b. split; auto. apply Z.eqb_eq. lia. }
    destruct (one_or_two bbc (b2z dm) Hdim01 (make_buckets nb bl (GMin bbc (b2z dm) sl)) sl Hne Htk)
      as [(j & Hj & Hin)|(Hnin & i & j & e & e' & Hij & He & He' & Hti & Htj)].
    - apply Hex in Hin. rewrite Hin.
      assert (Hone : one (p ++ sl' ++ q) lo hi dm).
      { eapply one_perm; [exact HPR|]. rewrite <- Hp. replace hi with (zlen p + zlen sl) by lia. eapply one_ok; eauto. }
      destruct (0 <=? d) eqn:Ed.
      + apply Z.leb_le in Ed. rewrite (update_node_ok _ _ _ nd) by (auto; lia). cbn [bind]. intros X. inversion X; subst. sb.
        split; [lia|]. split; auto. destruct (ndim nd); reflexivity.
      + apply Z.leb_gt in Ed. rewrite (update_node_ok _ _ _ nd) by (auto; lia). cbn [bind]. intros X. inversion X; subst s' l. sb.
        intros i [-> | Hi]; [|lia]. eexists. split; [apply aget_set_eq; lia|]. sb. split; [lia|]. split; [lia|].
        unfold node_full. sb. split; [|intros C; contradiction]. intros _. right. rewrite Hptr, Hsz.
        replace (lo + (hi - lo)) with hi by lia.
        destruct (Hflag Ed) as (_ & Ho). intros d0. destruct (Bool.bool_dec d0 dm) as [->|Hn]; auto.
        replace d0 with (negb dm) by (destruct d0, dm; reflexivity || congruence). eapply one_perm; eauto.
    - destruct (existsb (fun b => bsize b =? nsize nd) bs') eqn:Eone; [exfalso; apply Hnin, Hex; auto|].
      destruct (split_plane _ _ _ _ _) as [[[plane Lm] Rm]|] eqn:Es; [|discriminate]. cbn [bind].
      destruct (lget bs' plane) as [pb|]; [|discriminate]. cbn [bind].
      rewrite (update_node_ok _ _ _ nd) by (auto; lia). cbn [bind].
      set (nd1 := set_bounds nd Lm Rm).
      match goal with |- context [add_children _ idx k ?l ?r] => set (lc := l); set (rc := r) end.
      destruct (add_children_ok (list_set nodes (Z.to_nat idx) nd1) idx k lc rc nd1)
        as (nodes' & Eadd & Hlen & Hi & Hk1 & Hk2 & Hoth).
      { lia. }
      { rewrite zlen_set. lia. }
      { apply aget_set_eq. lia. }
      rewrite Eadd. cbn [bind]. intros X. inversion X; subst s' l. sb.
      intros nd' En. rewrite Hi in En. inversion En; subst nd'. sb. split; [lia|].
      unfold nd1. sb. rewrite Edm. eapply two_perm; [exact HPR|]. rewrite <- Hp. replace hi with (zlen p + zlen sl) by lia. apply (two_ok dm p sl q bl i j e e'); auto.
  Qed.

  (** ** The whole loop *)
  Lemma loop_nil F (s : bstate) : list_loop visit F [] s = Ok s.
  Proof. destruct F; reflexivity. Qed.

  Lemma occ_frame nodes nodes' bbi bbi' lo hi i a b :
    Occ nodes bbi lo hi i -> aget nodes' i = aget nodes i -> a <= lo -> hi <= b ->
    (forall j, lo <= j < hi -> aget bbi' j = aget bbi j) -> Occ nodes' bbi' a b i.
  Proof.
    intros (nd & E & H1 & H2 & H3) En Ha Hb Hs. exists nd. split; [congruence|]. split; [lia|]. split; [lia|].
    eapply full_same; [|exact H3]. intros j Hj. apply Hs. lia.
  Qed.

  Lemma bigstep_occ : forall (M : nat) s idx d dm lo hi,
    2 * (hi - lo) - flagged d < Z.of_nat M ->
    Inv bbc s -> Fresh s idx d lo hi -> b2z dm = dimof d ->
    st_node_index s + 2 * (hi - lo) - 2 <= zlen (st_nodes s) ->
    (d < 0 -> cpl < hi - lo /\ one (st_bbi s) lo hi (negb dm)) ->
    forall s' c, (forall F rest, list_loop visit (c + F) ((idx, d) :: rest) s = list_loop visit F rest s') ->
    forall i, i = idx \/ st_node_index s <= i < st_node_index s' -> Occ (st_nodes s') (st_bbi s') lo hi i.
  Proof.
    induction M as [|M IH]; intros s idx d dm lo hi HM Hinv Hfr Hdm Hbud Hflag s' c Hloop.
    { destruct Hfr as (_ & Hlo & _). unfold flagged in HM. destruct (0 <=? d); lia. }
    assert (Hfl : 0 <= flagged d <= 1) by (unfold flagged; destruct (0 <=? d); lia).
    assert (Hlohi : lo < hi) by (destruct Hfr as (_ & H & _); lia).
    assert (Huniq : forall s'' c'', (forall F, list_loop visit (c'' + F) [(idx, d)] s = Ok s'') -> s'' = s').
    { intros s'' c'' H. pose proof (Hloop c'' []) as H1. rewrite loop_nil in H1. specialize (H c).
      rewrite Nat.add_comm in H. congruence. }
    assert (Hfail : forall er c'', (forall F, list_loop visit (c'' + F) [(idx, d)] s = Err er) -> False).
    { intros er c'' H. pose proof (Hloop c'' []) as H1. rewrite loop_nil in H1. specialize (H c).
      rewrite Nat.add_comm in H. congruence. }
    destruct (visit_ok bbc Hfin g nb cpl Hnb Hcpl s idx d lo hi Hinv Hfr Hbud)
      as [(er & E & Hf)
         |[(s1 & E & HP)
         |[(s1 & d' & E & Hd & Hd' & Hinv1 & HF1 & Hk1 & Hfr1)
          |(s1 & mid & d1 & d2 & nd & E & Hmid & Hd1 & Hd2 & Hinv1 & HF1 & Hk1 & End & Hch & Hptr & Hsz
            & HL & HR & HLa & HRa & Hfr1 & Hfr2)]]].
    - exfalso. apply (Hfail er 1%nat). intros F. cbn [Nat.add list_loop]. now rewrite E.
    - pose proof (visit_occ s idx d dm lo hi s1 [] Hinv Hfr Hdm Hbud Hflag E) as H.
      assert (s1 = s').
      { apply (Huniq s1 1%nat). intros F. cbn [Nat.add list_loop]. rewrite E. apply loop_nil. }
      subst s1. exact H.
    - pose proof (visit_occ s idx d dm lo hi s1 [(idx, d')] Hinv Hfr Hdm Hbud Hflag E) as (H1 & H2 & H3).
      assert (Ef : flagged d' = 1) by (unfold flagged; destruct (0 <=? d') eqn:E0; lia).
      assert (Ef0 : flagged d = 0) by (unfold flagged; destruct (0 <=? d) eqn:E0; lia).
      destruct HF1 as (F1 & F2 & F3 & F4).
      destruct (bigstep bbc Hfin g nb cpl Hnb Hcpl M s1 idx d' lo hi) as [(er & c1 & Hc & Hf & Hl)|(s2 & c1 & Hc & HP & Hl)]; auto; try lia.
      + exfalso. apply (Hfail er (S c1)). intros F. cbn [Nat.add list_loop]. rewrite E. cbn [bind rev app]. apply Hl.
      + assert (s2 = s').
        { apply (Huniq s2 (S c1)). intros F. cbn [Nat.add list_loop]. rewrite E. cbn [bind rev app]. rewrite Hl. apply loop_nil. }
        subst s2. rewrite <- Hk1.
        apply (IH s1 idx d' (negb dm) lo hi ltac:(lia) Hinv1 Hfr1 H3 ltac:(lia)) with (c := c1); auto.
        intros _. rewrite negb_involutive. auto.
    - cbv zeta in E. set (k := st_node_index s) in *.
      pose proof (visit_occ s idx d dm lo hi s1 _ Hinv Hfr Hdm Hbud Hflag E) as Hocc. cbv beta iota zeta in Hocc.
      destruct (Hocc nd End) as (Hbig & Htwo). clear Hocc.
      destruct HF1 as (F1 & F2 & F3 & F4). fold k in F2, F4.
      assert (Hidx : 0 <= idx < k) by (destruct Hfr as (H & _); exact H).
      assert (Ef1 : flagged d1 = 0) by (unfold flagged; destruct (0 <=? d1) eqn:E0; lia).
      assert (Ef2 : flagged d2 = 0) by (unfold flagged; destruct (0 <=? d2) eqn:E0; lia).
      destruct (bigstep bbc Hfin g nb cpl Hnb Hcpl M s1 k d1 lo mid) as [(er & c1 & Hc & Hf & Hl)|(s2 & c1 & Hc1 & HP1 & Hl1)];
        auto; try lia.
      { exfalso. apply (Hfail er (S c1)). intros F. cbn [Nat.add list_loop]. rewrite E. cbn [bind rev app]. apply Hl. }
      assert (Dm : forall j, exists e, -2 <= j <= 1 -> b2z e = dimof j).
      { intros j. exists ((j =? 1) || (j =? -1))%bool. intros Hj.
        assert (j = -2 \/ j = -1 \/ j = 0 \/ j = 1) as [-> | [-> | [-> | ->]]] by lia; reflexivity. }
      assert (O1 : forall i, i = k \/ st_node_index s1 <= i < st_node_index s2 -> Occ (st_nodes s2) (st_bbi s2) lo mid i).
      { destruct (Dm d1) as (dm1 & Hdm1). apply (IH s1 k d1 dm1 lo mid) with (c := c1); auto; try lia.
        apply Hdm1. destruct Hfr1 as (_ & _ & _ & H & _). lia. }
      destruct HP1 as (Hinv2 & (G1 & G2 & G3 & G4) & Hk2 & S1 & HT1 & HS1).
      assert (Hfr2' : Fresh s2 (k + 1) d2 mid hi).
      { destruct Hfr2 as (A1 & A2 & A3 & A4 & nd2 & A5 & A6). unfold Fresh.
        rewrite (PermRange_zlen _ _ _ _ G3).
        split; [lia|]. split; [auto|]. split; [auto|]. split; [auto|].
        exists nd2. split; [|auto]. rewrite G4 by lia. auto. }
      destruct (bigstep bbc Hfin g nb cpl Hnb Hcpl M s2 (k + 1) d2 mid hi) as [(er & c2 & Hc & Hf & Hl)|(s3 & c2 & Hc2 & HP2 & Hl2)];
        auto; try lia.
      { exfalso. apply (Hfail er (S (c1 + c2))). intros F. cbn [Nat.add list_loop]. rewrite E. cbn [bind rev app].
        replace (c1 + c2 + F)%nat with (c1 + (c2 + F))%nat by lia. rewrite Hl1. apply Hl. }
      assert (O2 : forall i, i = k + 1 \/ st_node_index s2 <= i < st_node_index s3 -> Occ (st_nodes s3) (st_bbi s3) mid hi i).
      { destruct (Dm d2) as (dm2 & Hdm2). apply (IH s2 (k + 1) d2 dm2 mid hi) with (c := c2); auto; try lia.
        apply Hdm2. destruct Hfr2 as (_ & _ & _ & H & _). lia. }
      assert (s3 = s').
      { apply (Huniq s3 (S (c1 + c2))). intros F. cbn [Nat.add list_loop]. rewrite E. cbn [bind rev app].
        replace (c1 + c2 + F)%nat with (c1 + (c2 + F))%nat by lia. rewrite Hl1, Hl2. apply loop_nil. }
      subst s3.
      destruct HP2 as (Hinv3 & (J1 & J2 & J3 & J4) & Hk3 & S2 & HT2 & HS2).
      intros i Hi.
      assert (Hcs : i = idx \/ (i = k \/ st_node_index s1 <= i < st_node_index s2) \/ (i = k + 1 \/ st_node_index s2 <= i < st_node_index s')) by lia.
      destruct Hcs as [-> | [Hi1 | Hi2]].
      + exists nd. split; [rewrite J4, G4 by lia; exact End|]. split; [lia|]. split; [lia|].
        split; [intros C; lia|]. intros _. split; [lia|]. right. rewrite Hptr, Hsz. replace (lo + (hi - lo)) with hi by lia.
        assert (Hz1 : zlen (st_bbi s1) = zlen (st_bbi s)) by (eapply PermRange_zlen; eauto).
        assert (Hz2 : zlen (st_bbi s2) = zlen (st_bbi s1)) by (eapply PermRange_zlen; eauto).
        assert (Hb : 0 <= lo /\ hi <= zlen (st_bbi s)) by (destruct Hfr as (_ & B1 & B2 & _); lia).
        eapply two_perm; [|exact Htwo].
        eapply PermRange_trans; [eapply PermRange_widen; [exact G3|lia|lia]|].
        eapply PermRange_widen; [exact J3|lia|lia].
      + assert (Hb : 0 <= lo /\ hi <= zlen (st_bbi s2)).
        { destruct Hfr as (_ & B1 & B2 & _). rewrite (PermRange_zlen _ _ _ _ G3), (PermRange_zlen _ _ _ _ F3). lia. }
        eapply occ_frame; [exact (O1 i Hi1)| | | |]; try lia.
        * apply J4; lia.
        * intros j Hj. eapply PermRange_out; [exact J3|lia|lia].
      + eapply occ_frame; [exact (O2 i Hi2)|reflexivity|lia|lia|auto].
  Qed.
End Occ.

Section InitOcc.
  Context {T : Type} {NT : Num T} {NO : NumOrd T}.
  Variable bbc : list (box T).
  Hypothesis Hfin : Forall fin_box bbc.
  Variable g : garbage T.
  Variables nb cpl : Z.
  Hypothesis Hnb : 1 <= nb.
  Hypothesis Hcpl : 1 <= cpl.

  Theorem initialize_occ n fuel nodes bbi :
    (1 <= n)%nat -> Z.of_nat n <= zlen bbc -> (4 * n <= fuel)%nat ->
    initialize g fuel n bbc nb cpl = Ok (nodes, bbi) ->
    forall nd, In nd nodes -> node_full nb cpl bbc bbi nd.
  Proof.
    intros Hn Hnb' Hfuel. unfold initialize.
    set (bbi0 := iota n).
    assert (Hl0 : zlen bbi0 = Z.of_nat n) by (unfold zlen, bbi0; now rewrite iota_length).
    rewrite Hl0.
    pose proof (pessimistic_ge (Z.of_nat n) ltac:(lia)) as Hpe.
    set (N := pessimistic_n_nodes (Z.of_nat n)) in *.
    set (arr := np_empty (gnode g) (Z.to_nat N)).
    assert (Harr : zlen arr = N) by (unfold zlen, arr; rewrite np_empty_length; lia).
    unfold push_node. rewrite aset_pos by lia. cbn [bind].
    change (Z.to_nat 0) with O.
    set (root := create_node 0 (Z.of_nat n) false).
    set (arr0 := list_set arr 0 root).
    unfold build.
    destruct (alloc_rep (gZZ g) (0, 0)) as (st & Est & Hst). rewrite Est. cbn [bind].
    rewrite (stack_loop_list _ _ fuel st 1 [(0, 0)] _ Hst).
    set (s0 := BState arr0 (0 + 1) bbi0).
    assert (Harr0 : zlen arr0 = N) by (unfold arr0; now rewrite zlen_set).
    assert (Hinv : Inv bbc s0).
    { split; [simpl; lia|]. split; [apply iota_nodup|].
      apply Forall_forall. intros i Hi. apply iota_in in Hi. unfold PPartition.in_range. lia. }
    assert (Hfr : Fresh s0 0 0 0 (Z.of_nat n)).
    { unfold Fresh. cbn [st_nodes st_node_index st_bbi s0]. split; [simpl; lia|]. split; [lia|]. split; [simpl; lia|]. split; [lia|].
      exists root. split; [apply (aget_set_eq arr 0); lia|]. unfold root. cbn [create_node nchild nptr nsize ndim]. repeat split; auto. lia. }
    destruct (bigstep bbc Hfin g nb cpl Hnb Hcpl (S (Z.to_nat (2 * Z.of_nat n))) s0 0 0 0 (Z.of_nat n))
      as [(er & c & Hc & Hf & Hl)|(s' & c & Hc & HP & Hl)]; auto.
    { change (flagged 0) with 0. lia. }
    { change (st_node_index s0) with 1. change (st_nodes s0) with arr0. lia. }
    - change (flagged 0) with 0 in Hc.
      replace fuel with (c + (fuel - c))%nat by lia. rewrite Hl. discriminate.
    - change (flagged 0) with 0 in Hc.
      pose proof (bigstep_occ bbc Hfin g nb cpl Hnb Hcpl (S (Z.to_nat (2 * Z.of_nat n))) s0 0 0 false 0 (Z.of_nat n)) as Ho.
      specialize (Ho ltac:(change (flagged 0) with 0; lia) Hinv Hfr eq_refl).
      specialize (Ho ltac:(change (st_node_index s0) with 1; change (st_nodes s0) with arr0; lia) ltac:(lia) s' c Hl).
      change (st_node_index s0) with 1 in Ho.
      replace fuel with (c + (fuel - c))%nat by lia. rewrite Hl, loop_nil. cbn [bind]. intros X. inversion X; subst nodes bbi. clear X.
      destruct HP as (((K1 & K2) & _) & (P1 & P2 & _) & _).
      change (st_node_index s0) with 1 in P2.
      intros nd Hin. apply In_nth_error in Hin as (m & Hm).
      assert (Hlt : (m < length (firstn (Z.to_nat (st_node_index s')) (st_nodes s')))%nat) by (apply nth_error_Some; congruence).
      rewrite firstn_length in Hlt.
      assert (Hm' : nth_error (st_nodes s') m = Some nd).
      { rewrite <- (firstn_skipn (Z.to_nat (st_node_index s')) (st_nodes s')). rewrite nth_error_app1; auto. rewrite firstn_length. lia. }
      destruct (Ho (Z.of_nat m)) as (nd' & E & _ & _ & H); [lia|].
      rewrite (aget_pos _ (Z.of_nat m) nd) in E by (rewrite ?Nat2Z.id; auto; lia). inversion E; subst. exact H.
  Qed.
End InitOcc.
