(** Where nodes are split: proofs about the construction loop. *)
From Verif Require Import Base Num MUtils MGeometry MCreation PStack PPartition SpecTree SpecOcc PBuild PBuild2 POcc.

Section Parts.
  Context {T : Type} {NT : Num T}.
  Notation box := (box T).
  Notation bucket := (bucket T).
  Variable bbc : list box.
  Variable dim : Z.
  Hypothesis Hdim : dim = 0 \/ dim = 1.
  Notation ptest := (ptest bbc dim).
  Notation in_range := (in_range bbc).
  Notation takes := (takes bbc dim).
  Notation fit := (fit bbc dim).

  (** the elements each bucket takes *)
  Fixpoint fseg (bs : list bucket) (s : list Z) : list (list Z) :=
    match bs with
    | [] => []
    | b :: bs => filter (ptest b) s :: fseg bs (filter (fun e => negb (ptest b e)) s)
    end.

  Lemma fseg_fit bs : forall s, map zlen (fseg bs s) = fit bs s.
  Proof. induction bs as [|b bs IH]; intros s; cbn [fseg map POcc.fit]; auto. now rewrite IH. Qed.
  Lemma fseg_nil bs : concat (fseg bs []) = [].
  Proof. induction bs; cbn; auto. Qed.
  Lemma fseg_takes bs : forall s j seg e, nth_error (fseg bs s) j = Some seg -> In e seg -> takes bs j e /\ In e s.
  Proof.
    induction bs as [|b bs IH]; intros s [|j] seg e Hj He; cbn [fseg nth_error] in Hj; try discriminate.
    - inversion Hj; subst seg. apply filter_In in He as (H1 & H2). split; auto. split; [exists b; auto|]. intros k b0 Hk; lia.
    - destruct (IH _ _ _ _ Hj He) as (((b0 & Hb & Hp) & Hk) & Hin). apply filter_In in Hin as (Hin & Hn). apply negb_true_iff in Hn.
      split; auto. split; [exists b0; auto|]. intros [|k] b1 Hlt Hb1; [inversion Hb1; now subst|]. eapply Hk; eauto. lia.
  Qed.
  (** only the limits of the buckets matter *)
  Lemma fseg_limits bs bs' : Forall2 same_limits bs bs' -> forall s, fseg bs' s = fseg bs s.
  Proof.
    induction 1 as [|b b' bs bs' Hb _ IH]; intros s; cbn [fseg]; auto.
    assert (E : forall e, ptest b' e = ptest b e) by (intros e; destruct Hb as (H1 & H2); unfold PPartition.ptest, in_bucket; now rewrite H1, H2).
    rewrite (filter_ext (ptest b') (ptest b)) by auto. f_equal. rewrite IH. f_equal. apply filter_ext. intros e. now rewrite E.
  Qed.

  Lemma sort_loop_parts mem fuel : forall rest done i p s q bbi' bs',
    i = zlen done + 1 ->
    match rest with [] => True | b :: _ => bindex b = zlen p end ->
    Forall in_range s ->
    sort_loop mem bbc (zlen p + zlen s) dim fuel i (zlen p) (p ++ s ++ q) (done ++ rest) = Ok (bbi', bs') ->
    bbi' = p ++ concat (fseg rest s) ++ q.
  Proof.
    induction fuel as [|fuel IH]; intros rest done i p s q bbi' bs' Hi Hidx Hr E.
    - cbn [sort_loop] in E. destruct (zlen p =? zlen p + zlen s) eqn:Eq; [|discriminate]. apply Z.eqb_eq in Eq.
      assert (s = []) by (destruct s; auto; rewrite zlen_cons in Eq; pose proof (zlen_nonneg s); lia). subst s.
      inversion E; subst. now rewrite fseg_nil.
    - cbn [sort_loop] in E. destruct (zlen p =? zlen p + zlen s) eqn:Eq.
      + apply Z.eqb_eq in Eq.
        assert (s = []) by (destruct s; auto; rewrite zlen_cons in Eq; pose proof (zlen_nonneg s); lia). subst s.
        inversion E; subst. now rewrite fseg_nil.
      + apply Z.eqb_neq in Eq. destruct rest as [|b rest].
        { exfalso. rewrite app_nil_r in E. unfold lget, aget in E.
          replace (norm_idx (length done) (i - 1)) with (@None nat) in E; [discriminate|].
          unfold norm_idx. unfold zlen in Hi.
          destruct (0 <=? i - 1) eqn:E1; simpl; [|lia].
          destruct (i - 1 <? Z.of_nat (length done)) eqn:E2; [lia|].
          destruct (i - 1 <? 0) eqn:E3; [lia|]. now rewrite andb_false_r. }
        assert (Ei : i - 1 = zlen done) by lia.
        rewrite lget_mid in E by auto. cbn [bind] in E.
        rewrite stable_partition_ok in E by auto. cbn [bind] in E. cbn [fseg concat].
        set (ts := filter (ptest b) s) in *. set (fs := filter (fun i => negb (ptest b i)) s) in *.
        rewrite lset_mid in E by auto. cbn [bind] in E.
        set (b' := Bucket (bMax b) (bMin b) (bRmin b) (bLmax b) (bindex b) (zlen p + zlen ts - bindex b)) in *.
        assert (Hfr : Forall in_range fs).
        { rewrite Forall_forall in *. intros x Hx. apply Hr. eapply filter_In; eauto. }
        assert (Hend : zlen p + zlen s = zlen (p ++ ts) + zlen fs).
        { rewrite zlen_app. pose proof (filter_split_length (ptest b) s) as H. unfold zlen. subst ts fs. lia. }
        replace (p ++ (ts ++ fs) ++ q) with ((p ++ ts) ++ fs ++ q) in E by (rewrite <- !app_assoc; reflexivity).
        replace (zlen p + zlen ts) with (zlen (p ++ ts)) in E by apply zlen_app.
        rewrite Hend in E.
        replace (p ++ (ts ++ concat (fseg rest fs)) ++ q) with ((p ++ ts) ++ concat (fseg rest fs) ++ q) by (rewrite <- !app_assoc; reflexivity).
        destruct rest as [|b1 rest].
        * replace (i <? zlen (done ++ [b'])) with false in E
            by (rewrite zlen_app, zlen_cons, zlen_nil; symmetry; apply Z.ltb_ge; lia).
          cbn [bind] in E.
          apply (IH [] (done ++ [b']) (i + 1) (p ++ ts) fs q bbi' bs'); auto.
          -- rewrite zlen_app, zlen_cons, zlen_nil. lia.
          -- rewrite app_nil_r. exact E.
        * replace (i <? zlen (done ++ b' :: b1 :: rest)) with true in E
            by (rewrite zlen_app, !zlen_cons; pose proof (zlen_nonneg rest); symmetry; apply Z.ltb_lt; lia).
          replace (done ++ b' :: b1 :: rest) with ((done ++ [b']) ++ b1 :: rest) in E by (rewrite <- app_assoc; reflexivity).
          rewrite (lget_mid (done ++ [b'])) in E by (rewrite zlen_app; auto).
          cbn [bind] in E.
          replace ((done ++ [b']) ++ b1 :: rest) with (done ++ b' :: b1 :: rest) in E by (rewrite <- app_assoc; reflexivity).
          rewrite (lget_mid done) in E by lia. cbn [bind] in E.
          replace (done ++ b' :: b1 :: rest) with ((done ++ [b']) ++ b1 :: rest) in E by (rewrite <- app_assoc; reflexivity).
          rewrite (lset_mid (done ++ [b'])) in E by (rewrite zlen_app; auto).
          cbn [bind] in E.
          set (b1' := Bucket (bMax b1) (bMin b1) (bRmin b1) (bLmax b1) (bindex b' + bsize b') (bsize b1)) in *.
          change (concat (fseg (b1 :: rest) fs)) with (concat (fseg (b1' :: rest) fs)).
          apply (IH (b1' :: rest) (done ++ [b']) (i + 1) (p ++ ts) fs q bbi' bs'); auto.
          -- rewrite zlen_app, zlen_cons, zlen_nil. lia.
          -- cbn [bindex bsize b1' b']. rewrite zlen_app. lia.
  Qed.

  Lemma make_sorted_parts g nb p s q nd R L bl bbi' bs' :
    1 <= nb -> Forall in_range s -> nptr nd = zlen p -> nsize nd = zlen s ->
    make_sorted_buckets g bbc nb nd dim (p ++ s ++ q) = Ok (R, L, bl, bbi', bs') ->
    bbi' = p ++ concat (fseg (make_buckets nb bl R) s) ++ q
    /\ map bsize bs' = map zlen (fseg (make_buckets nb bl R) s).
  Proof.
    intros Hnb Hr Hp Hs E. split; [|rewrite fseg_fit; now apply (make_sorted_sizes bbc dim Hdim g nb p s q nd R L bl bbi' bs')].
    unfold make_sorted_buckets in E.
    destruct (get_bounds _ _ _ _ _) as [[R0 L0]|]; [|discriminate]. cbn [bind] in E.
    destruct (ndiv _ _) as [bl0|]; [|discriminate]. cbn [bind] in E.
    destruct (sort_bbox_indices _ _ _ _ _ _) as [[bbi1 bs1]|] eqn:Es; [|discriminate]. cbn [bind] in E.
    destruct (bucket_bounds _ _ _ _ _) as [bs2|] eqn:Eb; [|discriminate]. cbn [bind] in E.
    inversion E; subst R0 L0 bl0 bbi1 bs2. clear E Eb.
    pose proof (make_buckets_length nb bl R) as Hl.
    destruct (make_buckets nb bl R) as [|b0 bs] eqn:Em; [cbn in Hl; lia|].
    unfold sort_bbox_indices in Es.
    rewrite (lget_mid [] b0 bs) in Es by reflexivity. cbn [bind] in Es.
    rewrite (lset_mid [] b0 bs) in Es by reflexivity. cbn [bind app] in Es.
    rewrite Hp, Hs in Es.
    set (b0' := Bucket (bMax b0) (bMin b0) (bRmin b0) (bLmax b0) (zlen p) (bsize b0)) in *.
    change (fseg (b0 :: bs) s) with (fseg (b0' :: bs) s).
    apply (sort_loop_parts (gZ g) _ (b0' :: bs) [] 1 p s q) in Es; auto.
  Qed.

  (** The buckets hold consecutive segments; those of part [j] are in the
      [j]-th part, and the parts increase *)
  Inductive PSegs (mk : list bucket) : Z -> list bucket -> list Z -> Prop :=
  | PSegs_nil m : PSegs mk m [] []
  | PSegs_cons m j b bs seg s :
      m <= j -> 0 <= j -> bsize b = zlen seg -> bRmin b = GMin bbc dim seg -> bLmax b = GMax bbc dim seg ->
      (forall e, In e seg -> takes mk (Z.to_nat j) e) ->
      PSegs mk (j + 1) bs s ->
      PSegs mk m (b :: bs) (seg ++ s).

  Lemma PSegs_weaken mk m m' bs s : m' <= m -> PSegs mk m bs s -> PSegs mk m' bs s.
  Proof. intros H HP. inversion HP as [|? j]; subst; [constructor|apply (PSegs_cons mk m' j); auto; lia]. Qed.
  Lemma PSegs_len mk m bs s : PSegs mk m bs s -> fold_right Z.add 0 (map bsize bs) = zlen s.
  Proof. induction 1 as [|m j b bs seg s _ _ Hs _ _ _ _ IH]; [reflexivity|]. cbn [map fold_right]. rewrite IH, zlen_app. lia. Qed.
  Lemma Segs_len off bs s : Segs bbc dim off bs s -> fold_right Z.add 0 (map bsize bs) = zlen s.
  Proof. induction 1 as [|off b bs seg s Hs _ _ _ _ IH]; [reflexivity|]. cbn [map fold_right]. rewrite IH, zlen_app. lia. Qed.

  Lemma app_same_len {A} (a b c d : list A) : a ++ b = c ++ d -> zlen a = zlen c -> a = c /\ b = d.
  Proof. 
    revert c. induction a as [|x a IH]; intros [|y c] H Hl; rewrite ?zlen_cons, ?zlen_nil in Hl; try (pose proof (zlen_nonneg a)); try (pose proof (zlen_nonneg c)); try lia; auto.
    cbn [app] in H. inversion H. destruct (IH c) as (-> & ->); auto. lia.
  Qed.

  Lemma Segs_PSegs mk off bs s : Segs bbc dim off bs s -> forall m segs,
    0 <= m -> s = concat segs -> map bsize bs = map zlen segs ->
    (forall k seg e, nth_error segs k = Some seg -> In e seg -> takes mk (Z.to_nat m + k) e) -> PSegs mk m bs s.
  Proof.
    induction 1 as [|off b bs seg s Hs Hi HR HL Hr IH]; intros m segs Hm Es Hl Ht; [constructor|].
    destruct segs as [|sg segs]; [discriminate|]. cbn [map concat] in *. inversion Hl as [[Hl1 Hl2]].
    apply app_same_len in Es as (-> & Es); [|lia].
    apply (PSegs_cons mk m m); auto; try lia.
    - intros e He. specialize (Ht O sg e eq_refl He). now rewrite Nat.add_0_r in Ht.
    - apply (IH (m + 1) segs); auto; [lia|]. intros k sg' e Hk He. specialize (Ht (S k) sg' e Hk He).
      replace (Z.to_nat (m + 1) + k)%nat with (Z.to_nat m + S k)%nat by lia. exact Ht.
  Qed.

  Lemma merge_empty_parts mk : forall rest prev m s, PSegs mk m (prev :: rest) s -> PSegs mk m (merge_empty prev rest) s.
  Proof.
    induction rest as [|b rest IH]; intros prev m s H; cbn [merge_empty]; auto.
    inversion H as [|? j ? ? seg s1 Hj Hj0 Hs HR HL Ht Hr]; subst.
    destruct (bsize b =? 0) eqn:E.
    - apply IH. inversion Hr as [|? j2 ? ? seg2 s2 Hj2 Hj20 Hs2 HR2 HL2 Ht2 Hr2]; subst.
      assert (seg2 = []) as -> by (destruct seg2; auto; rewrite zlen_cons in Hs2; pose proof (zlen_nonneg seg2); lia).
      cbn [app]. apply (PSegs_cons mk m j); auto. eapply PSegs_weaken; [|exact Hr2]. lia.
    - apply (PSegs_cons mk m j); auto.
  Qed.
  Lemma drop_empty_front_parts mk : forall rest b0 m s bs, PSegs mk m (b0 :: rest) s -> drop_empty_front b0 rest = Ok bs -> PSegs mk m bs s.
  Proof.
    induction rest as [|b rest IH]; intros b0 m s bs H E; cbn [drop_empty_front] in E; destruct (bsize b0 =? 0) eqn:E0; try discriminate.
    - inversion E; subst. auto.
    - eapply IH; [|exact E]. inversion H as [|? j ? ? seg s1 Hj Hj0 Hs HR HL Ht Hr]; subst.
      assert (seg = []) as -> by (destruct seg; auto; rewrite zlen_cons in Hs; pose proof (zlen_nonneg seg); lia).
      cbn [app]. inversion Hr as [|? j2 ? ? seg2 s2 Hj2 Hj20 Hs2 HR2 HL2 Ht2 Hr2]; subst.
      apply (PSegs_cons mk m j2); auto. lia.
    - inversion E; subst. auto.
  Qed.
  Lemma merge_buckets_parts mk m bs s bs' : PSegs mk m bs s -> merge_buckets bs = Ok bs' -> PSegs mk m bs' s.
  Proof.
    unfold merge_buckets. destruct bs as [|b0 rest]; [discriminate|]. intros H E.
    destruct (drop_empty_front b0 rest) as [l|] eqn:Ed; [|discriminate]. cbn [bind] in E.
    pose proof (drop_empty_front_parts mk _ _ _ _ _ H Ed) as H1. destruct l as [|b1 r1]; [discriminate|]. inversion E; subst. now apply merge_empty_parts.
  Qed.

  (** at every bucket there is a cut: before it are smaller parts, after it larger *)
  Lemma PSegs_app mk bs1 : forall m bs2 s, PSegs mk m (bs1 ++ bs2) s -> bs2 <> [] ->
    exists s1 s2 c, s = s1 ++ s2 /\ m <= c /\ 0 <= c /\ PSegs mk m bs1 s1 /\ PSegs mk c bs2 s2
      /\ (bs1 <> [] -> m < c)
      /\ (forall e, In e s1 -> exists j, 0 <= j < c /\ takes mk (Z.to_nat j) e)
      /\ match bs2 with [] => True | _ => exists seg s3, s2 = seg ++ s3 /\ forall e, In e seg -> takes mk (Z.to_nat c) e end.
  Proof.
    induction bs1 as [|b bs1 IH]; intros m bs2 s H Hne; cbn [app] in H.
    - destruct bs2 as [|b2 bs2]; [congruence|]. inversion H as [|? j ? ? seg s1 Hj Hj0 Hs HR HL Ht Hr]; subst.
      exists [], (seg ++ s1), j. split; [reflexivity|]. split; auto. split; auto. split; [constructor|]. split; [econstructor; eauto; lia|].
      split; [congruence|]. split; [intros e []|]. exists seg, s1. auto.
    - inversion H as [|? j ? ? seg s1 Hj Hj0 Hs HR HL Ht Hr]; subst.
      destruct (IH _ _ _ Hr Hne) as (sa & sb & c & -> & Hc & Hc0 & P1 & P2 & Hm & Hb & Hf).
      exists (seg ++ sa), sb, c. rewrite app_assoc. split; auto. split; [lia|]. split; auto. split; [econstructor; eauto|]. split; auto. split; [lia|]. split; auto.
      intros e He. apply in_app_iff in He as [He|He]; [exists j; split; [lia|auto]|auto].
  Qed.
  Lemma PSegs_above mk m bs s : 0 <= m -> PSegs mk m bs s -> forall e, In e s -> exists j, m <= j /\ takes mk (Z.to_nat j) e.
  Proof.
    intros Hm. induction 1 as [|m j b bs seg s Hj Hj0 Hs HR HL Ht Hr IH]; intros e He; [destruct He|].
    apply in_app_iff in He as [He|He]; [exists j; auto|]. destruct (IH ltac:(lia) e He) as (k & Hk & Hk'). exists k. split; auto; lia.
  Qed.
End Parts.

Section Split.
  Context {T : Type} {NT : Num T} {NO : NumOrd T}.
  Notation box := (box T).
  Notation bucket := (bucket T).
  Notation node := (node T).
  Notation bstate := (@bstate T).
  Variable bbc : list box.
  Hypothesis Hfin : Forall fin_box bbc.
  Notation in_range := (in_range bbc).
  Variable g : garbage T.
  Variables nb cpl : Z.
  Hypothesis Hnb : 1 <= nb.
  Hypothesis Hcpl : 1 <= cpl.
  Notation visit := (build_visit g bbc nb cpl).

  Ltac sb := cbn [st_nodes st_node_index st_bbi nchild nptr nsize ndim nLmax nRmin
                  set_child set_bounds set_dim create_node] in *.

  (** What is known when a node is divided into the elements [l1] and [l2] *)
  Definition Data (d : bool) (l1 l2 : list Z) (L R : T) : Prop :=
    exists sl s1 s2 bl bs1 bs2 c root,
      Permutation s1 l1 /\ Permutation s2 l2 /\ Permutation sl (s1 ++ s2) /\ Forall in_range sl
      /\ s1 <> [] /\ s2 <> []
      /\ ndiv (nsub (GMax bbc (b2z d) sl) (GMin bbc (b2z d) sl)) (nofZ nb) = Ok bl
      /\ (let mk := make_buckets nb bl (GMin bbc (b2z d) sl) in
          PSegs bbc (b2z d) mk 0 (bs1 ++ bs2) (s1 ++ s2) /\ PSegs bbc (b2z d) mk c bs2 s2
          /\ (forall e, In e s1 -> exists j, 0 <= j < c /\ takes bbc (b2z d) mk (Z.to_nat j) e)
          /\ (forall e, In e s2 -> exists j, c <= j /\ takes bbc (b2z d) mk (Z.to_nat j) e))
      /\ Forall (fun b => 0 < bsize b) (bs1 ++ bs2) /\ 0 < c < nb
      /\ split_plane (bs1 ++ bs2) root (GMax bbc (b2z d) sl) (GMin bbc (b2z d) sl) bl = Ok (zlen bs1, L, R)
      /\ nsize root = zlen sl
      /\ (exists e, In e s1 /\ nleb L (ehi bbc (b2z d) e) = true)
      /\ (exists e, In e s2 /\ nleb (elo bbc (b2z d) e) R = true).

  Lemma Data_perm d l1 l2 l1' l2' L R : Permutation l1 l1' -> Permutation l2 l2' -> Data d l1 l2 L R -> Data d l1' l2' L R.
  Proof.
    intros P1 P2 (sl & s1 & s2 & bl & bs1 & bs2 & c & root & H1 & H2 & H). exists sl, s1, s2, bl, bs1, bs2, c, root.
    split; [now rewrite H1|]. split; [now rewrite H2|]. exact H.
  Qed.

  (** ** Parts of an array *)
  Lemma slice_app {A} (p s q : list A) a b : zlen p = a -> a + zlen s = b -> slice (p ++ s ++ q) a b = s.
  Proof.
    intros <- <-. unfold slice. replace (Z.to_nat (zlen p)) with (length p) by (unfold zlen; lia).
    rewrite skipn_app, skipn_all, Nat.sub_diag. cbn [skipn app].
    replace (Z.to_nat (zlen p + zlen s - zlen p)) with (length s) by (unfold zlen; lia).
    rewrite firstn_app, firstn_all, Nat.sub_diag. cbn [firstn]. apply app_nil_r.
  Qed.
  Lemma slice_split {A} (l : list A) a b : 0 <= a <= b -> b <= zlen l ->
    exists p q, l = p ++ slice l a b ++ q /\ zlen p = a /\ zlen (slice l a b) = b - a.
  Proof.
    intros H1 H2. destruct (split_at l a b H1 H2) as (p & s & q & E & Hp & Hs). exists p, q.
    assert (slice l a b = s) as -> by (rewrite E; apply slice_app; lia). repeat split; auto. lia.
  Qed.
  Lemma slice_perm {A} (l l' : list A) a b : PermRange l l' a b -> Permutation (slice l a b) (slice l' a b).
  Proof.
    intros (p & s & s' & q & E1 & E2 & Hp & Hs & P). rewrite E1, E2.
    rewrite (slice_app p s q a b) by lia. rewrite (slice_app p s' q a b); auto.
    apply Permutation_length in P. unfold zlen in *. lia.
  Qed.
  Lemma slice_same {A} (l l' : list A) a b : 0 <= a <= b -> b <= zlen l -> zlen l' = zlen l ->
    (forall i, a <= i < b -> aget l' i = aget l i) -> slice l' a b = slice l a b.
  Proof.
    intros H1 H2 H3 HE. unfold slice.
    assert (K : forall n m, (m + n <= Z.to_nat b)%nat -> (Z.to_nat a <= m)%nat -> firstn n (skipn m l') = firstn n (skipn m l)).
    { induction n as [|n IH]; intros m Hm Ha; [reflexivity|].
      specialize (HE (Z.of_nat m) ltac:(lia)).
      destruct (aget_ok_pos l (Z.of_nat m)) as (x & Ex & Nx); [lia|].
      destruct (aget_ok_pos l' (Z.of_nat m)) as (y & Ey & Ny); [lia|].
      rewrite Nat2Z.id in Nx, Ny. assert (x = y) by congruence. subst y.
      destruct (nth_error_split l m Nx) as (u & v & -> & Hu). destruct (nth_error_split l' m Ny) as (u' & v' & -> & Hu').
      specialize (IH (S m) ltac:(lia) ltac:(lia)).
      rewrite <- Hu at 2. rewrite <- Hu' at 1. rewrite !skipn_app, !skipn_all, !Nat.sub_diag. cbn [skipn app firstn]. f_equal.
      rewrite !skipn_app in IH. rewrite (skipn_all2 u), (skipn_all2 u') in IH by lia.
      replace (S m - length u)%nat with 1%nat in IH by lia. replace (S m - length u')%nat with 1%nat in IH by lia. exact IH. }
    apply K; lia.
  Qed.

  (** ** One round *)
  Definition Cut (bbi : list Z) (nd : node) (mid : Z) : Prop :=
    nptr nd < mid < nptr nd + nsize nd
    /\ (cpl = 1 /\ nsize nd = 2
        \/ Data (ndim nd) (slice bbi (nptr nd) mid) (slice bbi mid (nptr nd + nsize nd)) (nLmax nd) (nRmin nd)).
  Definition SP (nodes : list node) (bbi : list Z) (k0 k1 lo hi i : Z) : Prop :=
    exists nd, aget nodes i = Ok nd /\ lo <= nptr nd /\ nptr nd + nsize nd <= hi
      /\ (nchild nd <> -1 -> k0 <= nchild nd /\ nchild nd + 1 < k1
            /\ exists r, aget nodes (nchild nd + 1) = Ok r /\ Cut bbi nd (nptr r)).

  Lemma visit_split s idx d dm lo hi s' l :
    Inv bbc s -> Fresh s idx d lo hi -> b2z dm = dimof d ->
    st_node_index s + 2 * (hi - lo) - 2 <= zlen (st_nodes s) ->
    visit (idx, d) s = Ok (Next s' l) ->
    match l with
    | [] => forall i, i = idx \/ st_node_index s <= i < st_node_index s' -> SP (st_nodes s') (st_bbi s') (st_node_index s) (st_node_index s') lo hi i
    | [_] => True
    | _ => forall nd r, aget (st_nodes s') idx = Ok nd -> aget (st_nodes s') (st_node_index s + 1) = Ok r -> Cut (st_bbi s') nd (nptr r)
    end.
  Proof.
    destruct s as [nodes k bbi]. intros (Hk & Hnd & Hrng) (Hidx & Hlo & Hhi & Hd & nd & End & Hch & Hptr & Hsz & Hdim) Hdm Hbud.
    sb. unfold build_visit. fold (dimof d). rewrite End. cbn [bind].
    destruct (nsize nd <=? cpl) eqn:Ecpl.
    { intros X. inversion X; subst. sb. apply Z.leb_le in Ecpl. intros i [-> | Hi]; [|lia].
      exists nd. split; auto. split; [lia|]. split; [lia|]. intros C. contradiction. }
    apply Z.leb_gt in Ecpl.
    assert (Edm : ndim nd = dm) by (destruct (ndim nd), dm; cbn in *; congruence || lia).
    rewrite <- Hdm.
    assert (Hdim01 : b2z dm = 0 \/ b2z dm = 1) by (destruct dm; cbn; auto).
    destruct (split_at bbi lo hi) as (p & sl & q & Ebbi & Hp & Hpe); [lia|lia|].
    subst bbi. assert (Hsl : zlen sl = hi - lo) by lia.
    assert (Hrs : Forall in_range sl).
    { apply Forall_app in Hrng as (_ & Hr). apply Forall_app in Hr as (Hr & _). auto. }
    destruct (make_sorted_buckets_ok bbc g nb (b2z dm) p sl q nd Hdim01 Hnb Hrs)
      as [(er & E & Her)|(bl & sl' & bs & E & Ebl & Hperm & Hseg & Hlim)]; try lia;
      rewrite E; cbn [bind]; [discriminate|].
    destruct (make_sorted_parts bbc (b2z dm) Hdim01 g nb p sl q nd _ _ _ _ _ Hnb Hrs ltac:(lia) ltac:(lia) E) as (Hcat & Hszs).
    set (mk := make_buckets nb bl (GMin bbc (b2z dm) sl)) in *.
    destruct ((cpl =? 1) && (nsize nd =? 2)) eqn:E2.
    { apply andb_true_iff in E2 as (E1 & E2). apply Z.eqb_eq in E1. apply Z.eqb_eq in E2.
      rewrite (update_node_ok _ _ _ nd) by (auto; lia). cbn [bind].
      set (nd1 := set_bounds nd (GMax bbc (b2z dm) sl) (GMin bbc (b2z dm) sl)).
      set (lc := create_node (nptr nd) 1 (b2z dm =? 0)).
      set (rc := create_node (nptr nd + 1) 1 (b2z dm =? 0)).
      destruct (add_children_ok (list_set nodes (Z.to_nat idx) nd1) idx k lc rc nd1)
        as (nodes' & Eadd & Hlen & Hi & Hk1 & Hk2 & Hoth).
      - lia.
      - rewrite zlen_set. lia.
      - apply aget_set_eq. lia.
      - rewrite Eadd. cbn [bind]. intros X. inversion X; subst s' l. sb.
        intros i Hi'. assert (Hcs : i = idx \/ i = k \/ i = k + 1) by lia. destruct Hcs as [-> | [-> | ->]].
        + exists (set_child nd1 k). split; auto. unfold nd1. sb. split; [lia|]. split; [lia|]. intros _. split; [lia|]. split; [lia|].
          exists rc. split; auto. unfold Cut, rc. sb. split; [lia|]. now left.
        + exists lc. split; auto. unfold lc. sb. split; [lia|]. split; [lia|]. intros C. contradiction.
        + exists rc. split; auto. unfold rc. sb. split; [lia|]. split; [lia|]. intros C; contradiction. }
    assert (Hne' : sl' <> []).
    { intros ->. apply Permutation_sym, Permutation_nil in Hperm. subst sl. rewrite zlen_nil in Hsl. lia. }
    assert (Hps : PSegs bbc (b2z dm) mk 0 bs sl').
    { apply (Segs_PSegs bbc (b2z dm) mk _ _ _ Hseg 0 (fseg bbc (b2z dm) mk sl)); auto; [lia| |].
      - apply app_inv_head in Hcat. apply app_inv_tail in Hcat. exact Hcat.
      - intros j sg e Hj He. cbn [Z.to_nat Nat.add]. eapply fseg_takes; eauto. }
    destruct (merge_buckets_ok bbc (b2z dm) (zlen p) bs sl' Hseg Hne') as (bs' & Em & Hseg' & Hpos).
    rewrite Em. cbn [bind]. pose proof (merge_buckets_parts bbc (b2z dm) mk 0 bs sl' bs' Hps Em) as Hps'.
    destruct (existsb (fun b => bsize b =? nsize nd) bs') eqn:Eone.
    - destruct (0 <=? d) eqn:Ed.
      + rewrite (update_node_ok _ _ _ nd) by (auto; lia). cbn [bind]. intros X. inversion X; subst. exact I.
      + rewrite (update_node_ok _ _ _ nd) by (auto; lia). cbn [bind]. intros X. inversion X; subst s' l. sb.
        intros i [-> | Hi]; [|lia]. eexists. split; [apply aget_set_eq; lia|]. sb. split; [lia|]. split; [lia|]. intros C. contradiction.
    - destruct (split_plane_ok bbc Hfin (b2z dm) (zlen p) bs' sl' nd (GMax bbc (b2z dm) sl) (GMin bbc (b2z dm) sl) bl Hseg' Hpos)
        as [(er & Es & _)|(plane & Lm & Rm & pb & s1 & s2 & Es & Epb & Hix & Esl & Hs1 & Hs2 & HL & HR & HLa & HRa)];
        rewrite Es; cbn [bind]; [discriminate|].
      rewrite Epb. cbn [bind].
      rewrite (update_node_ok _ _ _ nd) by (auto; lia). cbn [bind].
      set (nd1 := set_bounds nd Lm Rm).
      match goal with |- context [add_children _ idx k ?l ?r] => set (lc := l); set (rc := r) end.
      destruct (add_children_ok (list_set nodes (Z.to_nat idx) nd1) idx k lc rc nd1)
        as (nodes' & Eadd & Hlen & Hi & Hk1 & Hk2 & Hoth).
      { lia. }
      { rewrite zlen_set. lia. }
      { apply aget_set_eq. lia. }
      rewrite Eadd. cbn [bind]. intros X. inversion X; subst s' l. sb.
      intros nd' r En Er. rewrite Hi in En. inversion En; subst nd'. rewrite Hk2 in Er. inversion Er; subst r. clear En Er.
      assert (Hrp : nptr rc = lo + zlen s1) by (unfold rc; sb; lia).
      assert (Hz1 : 0 < zlen s1) by (destruct s1; [congruence|]; rewrite zlen_cons; pose proof (zlen_nonneg s1); lia).
      assert (Hz2 : 0 < zlen s2) by (destruct s2; [congruence|]; rewrite zlen_cons; pose proof (zlen_nonneg s2); lia).
      assert (Hz : zlen sl' = hi - lo) by (apply Permutation_length in Hperm; unfold zlen in *; lia).
      rewrite Esl, zlen_app in Hz.
      unfold Cut. rewrite Hrp. unfold nd1. sb. rewrite Hptr, Hsz. split; [lia|]. right.
      replace (lo + (hi - lo)) with hi by lia. rewrite Edm.
      assert (slice (p ++ sl' ++ q) lo (lo + zlen s1) = s1) as ->.
      { rewrite Esl. rewrite <- app_assoc. apply slice_app; lia. }
      assert (slice (p ++ sl' ++ q) (lo + zlen s1) hi = s2) as ->.
      { rewrite Esl. replace (p ++ (s1 ++ s2) ++ q) with ((p ++ s1) ++ s2 ++ q) by (rewrite <- !app_assoc; reflexivity).
        apply slice_app; rewrite ?zlen_app; lia. }
      (* the plane in the list of buckets *)
      assert (Hpl : 0 <= plane < zlen bs').
      { clear - Es. unfold split_plane in Es. destruct (for_range 1 _ _ _) as [[[c pl] nl]|] eqn:Ef; [|discriminate]. cbn [bind] in Es.
        destruct pl as [pl|]; [|discriminate].
        destruct (Z.le_gt_cases (zlen bs') 1) as [Hl|Hl]; [rewrite for_range_nil in Ef by lia; discriminate|].
        pose proof (plane_loop bs' (nsize nd) (GMax bbc (b2z dm) sl) (GMin bbc (b2z dm) sl) bl (Z.to_nat (zlen bs' - 1)) 1 (nfmax, None, 0) ltac:(lia) ltac:(lia) I) as HP.
        unfold for_range in Ef. destruct HP as [HE|(st & HE & Hst)]; rewrite HE in Ef; [discriminate|]. inversion Ef; subst st. cbn [fst snd] in Hst.
        destruct (for_range 0 pl _ _) as [x|]; [|discriminate]. cbn [bind] in Es. destruct (for_range pl _ _ _) as [y|]; [|discriminate]. cbn [bind] in Es.
        inversion Es; subst. lia. }
      assert (Hsp : exists bs1 bs2, bs' = bs1 ++ bs2 /\ zlen bs1 = plane).
      { exists (firstn (Z.to_nat plane) bs'), (skipn (Z.to_nat plane) bs'). split; [symmetry; apply firstn_skipn|].
        unfold zlen in *; rewrite firstn_length; lia. }
      destruct Hsp as (bs1 & bs2 & Ebs & Hl1).
      assert (Hb2 : exists b2 r2, bs2 = b2 :: r2).
      { destruct bs2 as [|b2 r2]; eauto. exfalso. rewrite app_nil_r in Ebs. rewrite Ebs in Hpl. lia. }
      destruct Hb2 as (b2 & r2 & Eb2).
      pose proof Hseg' as Hsg. rewrite Ebs in Hsg. apply Segs_app_elim in Hsg as (t1 & t2 & Et & G1 & G2).
      pose proof Hps' as Hsq. rewrite Ebs in Hsq.
      destruct (PSegs_app bbc (b2z dm) mk bs1 0 bs2 sl' Hsq ltac:(congruence)) as (u1 & u2 & c & Eu & Hc & Hc0 & P1 & P2 & Hc1 & Hb1 & Hf2).
      assert (Ht1 : zlen t1 = zlen s1).
      { rewrite Eb2 in G2. inversion G2 as [|? ? ? sg2 t3 I1 I2 I3 I4 I5].
        rewrite Ebs, Eb2 in Epb. rewrite lget_mid in Epb by auto. inversion Epb as [Epb']. rewrite <- Epb' in Hix.
        rewrite I2 in Hix; [lia|]. intros Hn0. rewrite Hn0, zlen_nil in I1. rewrite Ebs, Eb2 in Hpos. apply Forall_app in Hpos as (_ & Hpos). apply Forall_inv in Hpos. lia. }
      assert (Hu1 : zlen u1 = zlen s1).
      { rewrite <- Ht1. apply PSegs_len in P1. apply Segs_len in G1. lia. }
      rewrite Esl in Eu. symmetry in Eu. apply app_same_len in Eu as (-> & ->); auto.
      assert (Hb1ne : bs1 <> []).
      { intros Hn. rewrite Hn in P1. inversion P1; subst. congruence. }
      specialize (Hc1 Hb1ne).
      assert (Hcn : c < nb).
      { rewrite Eb2 in Hf2. destruct Hf2 as (sg & s3 & E3 & Ht).
        destruct s2 as [|e s2]; [congruence|].
        destruct (PSegs_above bbc (b2z dm) mk c bs2 (e :: s2) Hc0 P2 e (or_introl eq_refl)) as (j & Hj & ((b & Hjb & _) & _)).
        assert (Hjl : (Z.to_nat j < length mk)%nat) by (apply nth_error_Some; congruence).
        unfold mk in Hjl. rewrite make_buckets_length in Hjl. lia. }
      exists sl, s1, s2, bl, bs1, bs2, c, nd. split; auto. split; auto. split; [now rewrite <- Esl|].
      split; auto. split; auto. split; auto. split; auto. split.
      { cbv zeta. fold mk. rewrite <- Ebs, <- Esl. split; auto. split; auto. split; auto. apply (PSegs_above bbc (b2z dm) mk c bs2); auto. }
      rewrite <- Ebs. split; auto. split; [lia|]. rewrite Hl1. split; auto. split; [lia|]. split; auto.
  Qed.

  Lemma cut_perm bbi bbi' nd mid : PermRange bbi bbi' (nptr nd) mid \/ PermRange bbi bbi' mid (nptr nd + nsize nd) ->
    0 <= nptr nd -> nptr nd + nsize nd <= zlen bbi -> Cut bbi nd mid -> Cut bbi' nd mid.
  Proof.
    intros HP H0 H1 (Hm & H). split; auto. destruct H as [H|H]; [now left|right].
    assert (Hz : zlen bbi' = zlen bbi) by (destruct HP as [HP|HP]; apply PermRange_zlen in HP; auto).
    eapply Data_perm; [| |exact H]; destruct HP as [HP|HP].
    - now apply slice_perm.
    - rewrite (slice_same bbi bbi'); auto; try lia. intros i Hi. eapply PermRange_out; [exact HP|lia|lia].
    - rewrite (slice_same bbi bbi'); auto; try lia. intros i Hi. eapply PermRange_out; [exact HP|lia|lia].
    - now apply slice_perm.
  Qed.
  Lemma cut_same bbi bbi' nd mid : zlen bbi' = zlen bbi -> 0 <= nptr nd -> nptr nd + nsize nd <= zlen bbi ->
    (forall i, nptr nd <= i < nptr nd + nsize nd -> aget bbi' i = aget bbi i) -> Cut bbi nd mid -> Cut bbi' nd mid.
  Proof.
    intros Hz H0 H1 HE (Hm & H). split; auto. destruct H as [H|H]; [now left|right].
    rewrite (slice_same bbi bbi'), (slice_same bbi bbi'); auto; try lia; intros i Hi; apply HE; lia.
  Qed.
  Lemma TreeAt_ptr nodes bbi i lo hi S : TreeAt nodes bbc bbi i lo hi S -> exists nd, aget nodes i = Ok nd /\ nptr nd = lo.
  Proof. destruct 1; eauto. Qed.

  Lemma bigstep_split : forall (M : nat) s idx d dm lo hi,
    2 * (hi - lo) - flagged d < Z.of_nat M ->
    Inv bbc s -> Fresh s idx d lo hi -> b2z dm = dimof d ->
    st_node_index s + 2 * (hi - lo) - 2 <= zlen (st_nodes s) ->
    forall s' c, (forall F rest, list_loop visit (c + F) ((idx, d) :: rest) s = list_loop visit F rest s') ->
    forall i, i = idx \/ st_node_index s <= i < st_node_index s' ->
      SP (st_nodes s') (st_bbi s') (st_node_index s) (st_node_index s') lo hi i.
  Proof.
    induction M as [|M IH]; intros s idx d dm lo hi HM Hinv Hfr Hdm Hbud s' c Hloop.
    { destruct Hfr as (_ & Hlo & _). unfold flagged in HM. destruct (0 <=? d); lia. }
    assert (Hfl : 0 <= flagged d <= 1) by (unfold flagged; destruct (0 <=? d); lia).
    assert (Hlohi : lo < hi) by (destruct Hfr as (_ & H & _); lia).
    assert (Huniq : forall s'' c'', (forall F, list_loop visit (c'' + F) [(idx, d)] s = Ok s'') -> s'' = s').
    { intros s'' c'' H. pose proof (Hloop c'' []) as H1. rewrite loop_nil in H1. specialize (H c).
      rewrite Nat.add_comm in H. congruence. }
    assert (Hfail : forall er c'', (forall F, list_loop visit (c'' + F) [(idx, d)] s = Err er) -> False).
    { intros er c'' H. pose proof (Hloop c'' []) as H1. rewrite loop_nil in H1. specialize (H c).
      rewrite Nat.add_comm in H. congruence. }
    destruct (visit_ok bbc Hfin g nb cpl Hnb Hcpl s idx d lo hi Hinv Hfr Hbud)
      as [(er & E & Hf)
         |[(s1 & E & HP)
         |[(s1 & d' & E & Hd & Hd' & Hinv1 & HF1 & Hk1 & Hfr1)
          |(s1 & mid & d1 & d2 & nd & E & Hmid & Hd1 & Hd2 & Hinv1 & HF1 & Hk1 & End & Hch & Hptr & Hsz
            & HL & HR & HLa & HRa & Hfr1 & Hfr2)]]].
    - exfalso. apply (Hfail er 1%nat). intros F. cbn [Nat.add list_loop]. now rewrite E.
    - pose proof (visit_split s idx d dm lo hi s1 [] Hinv Hfr Hdm Hbud E) as H.
      assert (s1 = s').
      { apply (Huniq s1 1%nat). intros F. cbn [Nat.add list_loop]. rewrite E. apply loop_nil. }
      subst s1. exact H.
    - assert (Ef : flagged d' = 1) by (unfold flagged; destruct (0 <=? d') eqn:E0; lia).
      assert (Ef0 : flagged d = 0) by (unfold flagged; destruct (0 <=? d) eqn:E0; lia).
      destruct HF1 as (F1 & F2 & F3 & F4).
      destruct (bigstep bbc Hfin g nb cpl Hnb Hcpl M s1 idx d' lo hi) as [(er & c1 & Hc & Hf & Hl)|(s2 & c1 & Hc & HP & Hl)]; auto; try lia.
      + exfalso. apply (Hfail er (S c1)). intros F. cbn [Nat.add list_loop]. rewrite E. cbn [bind rev app]. apply Hl.
      + assert (s2 = s').
        { apply (Huniq s2 (S c1)). intros F. cbn [Nat.add list_loop]. rewrite E. cbn [bind rev app]. rewrite Hl. apply loop_nil. }
        subst s2. rewrite <- Hk1.
        apply (IH s1 idx d' ((d' =? 1) || (d' =? -1))%bool lo hi ltac:(lia) Hinv1 Hfr1) with (c := c1); auto; try lia.
        destruct Hfr1 as (_ & _ & _ & Hdd & _).
        assert (d' = -2 \/ d' = -1 \/ d' = 0 \/ d' = 1) as [-> | [-> | [-> | ->]]] by lia; reflexivity.
    - cbv zeta in E. set (k := st_node_index s) in *.
      pose proof (visit_split s idx d dm lo hi s1 _ Hinv Hfr Hdm Hbud E) as Hcut. cbv beta iota zeta in Hcut. fold k in Hcut.
      destruct HF1 as (F1 & F2 & F3 & F4). fold k in F2, F4.
      assert (Hidx : 0 <= idx < k) by (destruct Hfr as (H & _); exact H).
      assert (Ef1 : flagged d1 = 0) by (unfold flagged; destruct (0 <=? d1) eqn:E0; lia).
      assert (Ef2 : flagged d2 = 0) by (unfold flagged; destruct (0 <=? d2) eqn:E0; lia).
      destruct (bigstep bbc Hfin g nb cpl Hnb Hcpl M s1 k d1 lo mid) as [(er & c1 & Hc & Hf & Hl)|(s2 & c1 & Hc1 & HP1 & Hl1)];
        auto; try lia.
      { exfalso. apply (Hfail er (S c1)). intros F. cbn [Nat.add list_loop]. rewrite E. cbn [bind rev app]. apply Hl. }
      assert (Dm : forall j, exists e, -2 <= j <= 1 -> b2z e = dimof j).
      { intros j. exists ((j =? 1) || (j =? -1))%bool. intros Hj.
        assert (j = -2 \/ j = -1 \/ j = 0 \/ j = 1) as [-> | [-> | [-> | ->]]] by lia; reflexivity. }
      assert (O1 : forall i, i = k \/ st_node_index s1 <= i < st_node_index s2 -> SP (st_nodes s2) (st_bbi s2) (st_node_index s1) (st_node_index s2) lo mid i).
      { destruct (Dm d1) as (dm1 & Hdm1). apply (IH s1 k d1 dm1 lo mid) with (c := c1); auto; try lia.
        apply Hdm1. destruct Hfr1 as (_ & _ & _ & H & _). lia. }
      destruct HP1 as (Hinv2 & (G1 & G2 & G3 & G4) & Hk2 & S1 & HT1 & HS1).
      assert (Hcut1 : exists r, aget (st_nodes s1) (k + 1) = Ok r /\ nptr r = mid /\ Cut (st_bbi s1) nd mid).
      { destruct Hfr2 as (A1 & A2 & A3 & A4 & nd2 & A5 & A6 & A7 & A8). exists nd2. split; auto. split; auto. rewrite <- A7. apply Hcut; auto. }
      assert (Hfr2' : Fresh s2 (k + 1) d2 mid hi).
      { destruct Hfr2 as (A1 & A2 & A3 & A4 & nd2 & A5 & A6). unfold Fresh.
        rewrite (PermRange_zlen _ _ _ _ G3).
        split; [lia|]. split; [auto|]. split; [auto|]. split; [auto|].
        exists nd2. split; [|auto]. rewrite G4 by lia. auto. }
      destruct (bigstep bbc Hfin g nb cpl Hnb Hcpl M s2 (k + 1) d2 mid hi) as [(er & c2 & Hc & Hf & Hl)|(s3 & c2 & Hc2 & HP2 & Hl2)];
        auto; try lia.
      { exfalso. apply (Hfail er (S (c1 + c2))). intros F. cbn [Nat.add list_loop]. rewrite E. cbn [bind rev app].
        replace (c1 + c2 + F)%nat with (c1 + (c2 + F))%nat by lia. rewrite Hl1. apply Hl. }
      assert (O2 : forall i, i = k + 1 \/ st_node_index s2 <= i < st_node_index s3 -> SP (st_nodes s3) (st_bbi s3) (st_node_index s2) (st_node_index s3) mid hi i).
      { destruct (Dm d2) as (dm2 & Hdm2). apply (IH s2 (k + 1) d2 dm2 mid hi) with (c := c2); auto; try lia.
        apply Hdm2. destruct Hfr2 as (_ & _ & _ & H & _). lia. }
      assert (s3 = s').
      { apply (Huniq s3 (S (c1 + c2))). intros F. cbn [Nat.add list_loop]. rewrite E. cbn [bind rev app].
        replace (c1 + c2 + F)%nat with (c1 + (c2 + F))%nat by lia. rewrite Hl1, Hl2. apply loop_nil. }
      subst s3.
      destruct HP2 as (Hinv3 & (J1 & J2 & J3 & J4) & Hk3 & S2 & HT2 & HS2).
      assert (Hz1 : zlen (st_bbi s1) = zlen (st_bbi s)) by (eapply PermRange_zlen; eauto).
      assert (Hz2 : zlen (st_bbi s2) = zlen (st_bbi s1)) by (eapply PermRange_zlen; eauto).
      assert (Hz3 : zlen (st_bbi s') = zlen (st_bbi s2)) by (eapply PermRange_zlen; eauto).
      assert (Hb : 0 <= lo /\ hi <= zlen (st_bbi s)) by (destruct Hfr as (_ & B1 & B2 & _); lia).
      destruct (TreeAt_ptr _ _ _ _ _ _ HT2) as (r & Er & Hr).
      intros i Hi.
      assert (Hcs : i = idx \/ (i = k \/ st_node_index s1 <= i < st_node_index s2) \/ (i = k + 1 \/ st_node_index s2 <= i < st_node_index s')) by lia.
      destruct Hcs as [-> | [Hi1 | Hi2]].
      + exists nd. split; [rewrite J4, G4 by lia; exact End|]. split; [lia|]. split; [lia|].
        intros _. split; [lia|]. split; [lia|]. exists r. rewrite Hch. split; auto. rewrite Hr.
        destruct Hcut1 as (r1 & _ & _ & Hcut1).
        apply (cut_perm (st_bbi s2)); try lia; [right; rewrite Hptr, Hsz; replace (lo + (hi - lo)) with hi by lia; exact J3|].
        apply (cut_perm (st_bbi s1)); auto; try lia. left. rewrite Hptr. exact G3.
      + destruct (O1 i Hi1) as (nd1 & E1 & L1 & H1 & Hc1'). exists nd1. split; [rewrite J4 by lia; auto|]. split; [lia|]. split; [lia|].
        intros Hne. destruct (Hc1' Hne) as (Q1 & Q2 & r1 & Er1 & Hr1). split; [lia|]. split; [lia|]. exists r1. split; [rewrite J4 by lia; auto|].
        apply (cut_same (st_bbi s2)); auto; try lia. intros j Hj. eapply PermRange_out; [exact J3|lia|lia].
      + destruct (O2 i Hi2) as (nd1 & E1 & L1 & H1 & Hc1'). exists nd1. split; auto. split; [lia|]. split; [lia|].
        intros Hne. destruct (Hc1' Hne) as (Q1 & Q2 & r1 & Er1 & Hr1). split; [lia|]. split; [lia|]. exists r1. auto.
  Qed.

  Theorem initialize_split n fuel nodes bbi :
    (1 <= n)%nat -> Z.of_nat n <= zlen bbc -> (4 * n <= fuel)%nat ->
    initialize g fuel n bbc nb cpl = Ok (nodes, bbi) ->
    forall nd, In nd nodes -> nchild nd <> -1 ->
      0 <= nptr nd /\ nptr nd + nsize nd <= zlen bbi
      /\ exists r, aget nodes (nchild nd + 1) = Ok r /\ Cut bbi nd (nptr r).
  Proof.
    intros Hn Hnb' Hfuel. unfold initialize.
    set (bbi0 := iota n).
    assert (Hl0 : zlen bbi0 = Z.of_nat n) by (unfold zlen, bbi0; now rewrite iota_length).
    rewrite Hl0.
    pose proof (pessimistic_ge (Z.of_nat n) ltac:(lia)) as Hpe.
    set (N := pessimistic_n_nodes (Z.of_nat n)) in *.
    set (arr := np_empty (gnode g) (Z.to_nat N)).
    assert (Harr : zlen arr = N) by (unfold zlen, arr; rewrite np_empty_length; lia).
    unfold push_node. rewrite aset_pos by lia. cbn [bind].
    change (Z.to_nat 0) with O.
    set (root := create_node 0 (Z.of_nat n) false).
    set (arr0 := list_set arr 0 root).
    unfold build.
    destruct (alloc_rep (gZZ g) (0, 0)) as (st & Est & Hst). rewrite Est. cbn [bind].
    rewrite (stack_loop_list _ _ fuel st 1 [(0, 0)] _ Hst).
    set (s0 := BState arr0 (0 + 1) bbi0).
    assert (Harr0 : zlen arr0 = N) by (unfold arr0; now rewrite zlen_set).
    assert (Hinv : Inv bbc s0).
    { split; [simpl; lia|]. split; [apply iota_nodup|].
      apply Forall_forall. intros i Hi. apply iota_in in Hi. unfold PPartition.in_range. lia. }
    assert (Hfr : Fresh s0 0 0 0 (Z.of_nat n)).
    { unfold Fresh. cbn [st_nodes st_node_index st_bbi s0]. split; [simpl; lia|]. split; [lia|]. split; [simpl; lia|]. split; [lia|].
      exists root. split; [apply (aget_set_eq arr 0); lia|]. unfold root. cbn [create_node nchild nptr nsize ndim]. repeat split; auto. lia. }
    destruct (bigstep bbc Hfin g nb cpl Hnb Hcpl (S (Z.to_nat (2 * Z.of_nat n))) s0 0 0 0 (Z.of_nat n))
      as [(er & c & Hc & Hf & Hl)|(s' & c & Hc & HP & Hl)]; auto.
    { change (flagged 0) with 0. lia. }
    { change (st_node_index s0) with 1. change (st_nodes s0) with arr0. lia. }
    - change (flagged 0) with 0 in Hc.
      replace fuel with (c + (fuel - c))%nat by lia. rewrite Hl. discriminate.
    - change (flagged 0) with 0 in Hc.
      pose proof (bigstep_split (S (Z.to_nat (2 * Z.of_nat n))) s0 0 0 false 0 (Z.of_nat n)) as Ho.
      specialize (Ho ltac:(change (flagged 0) with 0; lia) Hinv Hfr eq_refl).
      specialize (Ho ltac:(change (st_node_index s0) with 1; change (st_nodes s0) with arr0; lia) s' c Hl).
      change (st_node_index s0) with 1 in Ho.
      replace fuel with (c + (fuel - c))%nat by lia. rewrite Hl, loop_nil. cbn [bind]. intros X. inversion X; subst nodes bbi. clear X.
      destruct HP as (((K1 & K2) & _) & (P1 & P2 & P3 & _) & _).
      change (st_node_index s0) with 1 in P2.
      assert (Hzb : zlen (st_bbi s') = Z.of_nat n) by (rewrite (PermRange_zlen _ _ _ _ P3); exact Hl0).
      set (K := Z.to_nat (st_node_index s')) in *.
      assert (Hget : forall j x, 0 <= j < st_node_index s' -> aget (st_nodes s') j = Ok x <-> aget (firstn K (st_nodes s')) j = Ok x).
      { intros j x Hj.
        destruct (aget_ok_pos (st_nodes s') j) as (y & Ey & Ny); [lia|].
        assert (Hf : aget (firstn K (st_nodes s')) j = Ok y).
        { rewrite <- (firstn_skipn K (st_nodes s')) in Ny. rewrite nth_error_app1 in Ny by (rewrite firstn_length; unfold K, zlen in *; lia).
          apply aget_pos; auto; lia. }
        rewrite Ey, Hf. tauto. }
      intros nd Hin Hc1. apply In_nth_error in Hin as (m & Hm).
      assert (Hlt : (m < length (firstn K (st_nodes s')))%nat) by (apply nth_error_Some; congruence).
      rewrite firstn_length in Hlt.
      destruct (Ho (Z.of_nat m)) as (nd' & E & L1 & H1 & H); [unfold K in Hlt; lia|].
      assert (nd' = nd).
      { apply Hget in E; [|unfold K in Hlt; lia]. rewrite (aget_pos _ (Z.of_nat m) nd) in E by (rewrite ?Nat2Z.id; auto; lia). congruence. }
      subst nd'. split; [lia|]. split; [lia|].
      destruct (H Hc1) as (Q1 & Q2 & r & Er & Hr). exists r. split; auto. apply Hget; auto. lia.
  Qed.
End Split.
