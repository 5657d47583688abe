(** The construction loop builds a correct tree. *)
From Verif Require Import Base Num MUtils MGeometry MCreation PStack PPartition SpecTree PBuild.

Lemma NoDup_app_mid {A} (p s q : list A) : NoDup (p ++ s ++ q) -> NoDup s.
Proof.
  induction p as [|x p IH]; simpl; intros H.
  - induction s as [|y s IH]; [constructor|]. simpl in H. inversion H; subst.
    constructor; auto. intros Hin. apply H2. apply in_or_app; auto.
  - inversion H; subst. auto.
Qed.

Section Build2.
  Context {T : Type} {NT : Num T} {NO : NumOrd T}.
  Notation box := (box T).
  Notation bucket := (bucket T).
  Notation node := (node T).
  Notation bstate := (@bstate T).

  Variable bbc : list box.
  Hypothesis Hfin : Forall fin_box bbc.
  Notation in_range := (in_range bbc).
  Variable g : garbage T.
  Variables nb cpl : Z.
  Hypothesis Hnb : 1 <= nb.
  Hypothesis Hcpl : 1 <= cpl.

  Notation visit := (build_visit g bbc nb cpl).
  Notation TreeAt nodes bbi := (TreeAt nodes bbc bbi).

  (** Why construction stops with an exception: some set [s] of at least two
      elements cannot be split. *)
  Definition Fails (er : err) : Prop :=
    exists dim s, (dim = 0 \/ dim = 1) /\ 2 <= zlen s /\ NoDup s /\ Forall in_range s /\
      ((er = EZeroDiv /\ neqb (nofZ nb) (nofZ 0) = true)
       \/ (er = EList /\ exists e, In e s /\ no_bucket bbc nb dim s e)
       \/ exists bl off bs s' root,
            ndiv (nsub (GMax bbc dim s) (GMin bbc dim s)) (nofZ nb) = Ok bl
            /\ Permutation s s' /\ Segs bbc dim off bs s' /\ Forall (fun b => 0 < bsize b) bs
            /\ 2 <= zlen bs /\ nsize root = zlen s
            /\ split_plane bs root (GMax bbc dim s) (GMin bbc dim s) bl = Err er
            /\ (er = EZeroDiv \/ er = EList)).

  Lemma Fails_not_fuel er : Fails er -> er = EZeroDiv \/ er = EList.
  Proof.
    intros (dim & s & _ & _ & _ & _ & [(-> & _)|[(-> & _)|(bl & off & bs & s' & root & H)]]); auto.
    tauto.
  Qed.

  Definition dimof (d : Z) : Z := if d <? 0 then d + 2 else d.

  Definition Inv (s : bstate) : Prop :=
    0 <= st_node_index s <= zlen (st_nodes s) /\ NoDup (st_bbi s) /\ Forall in_range (st_bbi s).

  (** node [idx] is a fresh leaf for the range [lo, hi) *)
  Definition Fresh (s : bstate) (idx d lo hi : Z) : Prop :=
    0 <= idx < st_node_index s /\ 0 <= lo < hi /\ hi <= zlen (st_bbi s) /\ -2 <= d <= 1 /\
    exists nd, aget (st_nodes s) idx = Ok nd /\ nchild nd = -1 /\ nptr nd = lo
      /\ nsize nd = hi - lo /\ b2z (ndim nd) = dimof d.

  (** what processing the range [lo, hi) of node [idx] may change *)
  Definition Frame (s : bstate) (idx lo hi : Z) (s' : bstate) : Prop :=
    zlen (st_nodes s') = zlen (st_nodes s)
    /\ st_node_index s <= st_node_index s'
    /\ PermRange (st_bbi s) (st_bbi s') lo hi
    /\ (forall i, 0 <= i < st_node_index s -> i <> idx -> aget (st_nodes s') i = aget (st_nodes s) i).

  Definition Post (s : bstate) (idx lo hi : Z) (s' : bstate) : Prop :=
    Inv s' /\ Frame s idx lo hi s'
    /\ st_node_index s' <= st_node_index s + 2 * (hi - lo) - 2
    /\ exists S, TreeAt (st_nodes s') (st_bbi s') idx lo hi S
                 /\ Permutation S (idx :: zrange (st_node_index s) (st_node_index s')).

  Lemma side_lo_b (b : box) d : side_lo d b = blo b (b2z d).
  Proof. destruct d; reflexivity. Qed.
  Lemma side_hi_b (b : box) d : side_hi d b = bhi b (b2z d).
  Proof. destruct d; reflexivity. Qed.

  Ltac sb := cbn [st_nodes st_node_index st_bbi nchild nptr nsize ndim nLmax nRmin
                  set_child set_bounds set_dim create_node] in *.

  Lemma update_node_ok (nodes : list node) i f nd :
    0 <= i -> aget nodes i = Ok nd -> update_node nodes i f = Ok (list_set nodes (Z.to_nat i) (f nd)).
  Proof.
    intros Hi E. unfold update_node. rewrite E. cbn [bind]. apply aset_pos. split; auto.
    eapply aget_bound; eauto.
  Qed.

  Lemma add_children_ok (nodes : list node) i k l r nd :
    0 <= i < k -> k + 1 < zlen nodes -> aget nodes i = Ok nd ->
    exists nodes', add_children nodes i k l r = Ok (nodes', k + 2)
      /\ zlen nodes' = zlen nodes
      /\ aget nodes' i = Ok (set_child nd k) /\ aget nodes' k = Ok l /\ aget nodes' (k + 1) = Ok r
      /\ (forall j, 0 <= j < k -> j <> i -> aget nodes' j = aget nodes j).
  Proof.
    intros Hi Hk E. unfold add_children.
    rewrite (update_node_ok _ _ _ nd) by (auto; lia). cbn [bind]. unfold push_node.
    rewrite aset_pos by (rewrite zlen_set; lia). cbn [bind].
    rewrite aset_pos by (rewrite !zlen_set; lia). cbn [bind].
    replace (k + 1 + 1) with (k + 2) by lia.
    eexists. split; [reflexivity|]. rewrite !zlen_set. split; auto.
    split; [rewrite !aget_set_neq by lia; apply aget_set_eq; lia|].
    split; [rewrite aget_set_neq by lia; apply aget_set_eq; rewrite zlen_set; lia|].
    split; [apply aget_set_eq; rewrite !zlen_set; lia|].
    intros j Hj Hn. rewrite !aget_set_neq by lia. reflexivity.
  Qed.

  Lemma range_all_hi dim p s1 r Lm :
    Forall (fun e => nleb (ehi bbc dim e) Lm = true) s1 ->
    range_all bbc (p ++ s1 ++ r) (zlen p) (zlen p + zlen s1) (fun b => nleb (bhi b dim) Lm = true).
  Proof.
    intros H i e bx Hi He Hb. destruct (aget_app p s1 r i Hi) as (e' & E & Hin).
    rewrite E in He. inversion He; subst e'.
    rewrite Forall_forall in H. specialize (H e Hin). unfold ehi in H. now rewrite Hb in H.
  Qed.
  Lemma range_all_lo dim p s1 r Rm :
    Forall (fun e => nleb Rm (elo bbc dim e) = true) s1 ->
    range_all bbc (p ++ s1 ++ r) (zlen p) (zlen p + zlen s1) (fun b => nleb Rm (blo b dim) = true).
  Proof.
    intros H i e bx Hi He Hb. destruct (aget_app p s1 r i Hi) as (e' & E & Hin).
    rewrite E in He. inversion He; subst e'.
    rewrite Forall_forall in H. specialize (H e Hin). unfold elo in H. now rewrite Hb in H.
  Qed.

  Lemma range_ex_hi dim p s1 r Lm :
    (exists e, In e s1 /\ nleb Lm (ehi bbc dim e) = true) -> Forall in_range s1 ->
    range_ex bbc (p ++ s1 ++ r) (zlen p) (zlen p + zlen s1) (fun b => nleb Lm (bhi b dim) = true).
  Proof.
    intros (e & He & Hl) Hr. destruct (aget_app_in p s1 r e He) as (i & Hi & E).
    rewrite Forall_forall in Hr. destruct (aget_ok_pos bbc e (Hr e He)) as (b & Eb & _).
    exists i, e, b. repeat split; auto; try lia. unfold ehi in Hl. now rewrite Eb in Hl.
  Qed.
  Lemma range_ex_lo dim p s1 r Rm :
    (exists e, In e s1 /\ nleb (elo bbc dim e) Rm = true) -> Forall in_range s1 ->
    range_ex bbc (p ++ s1 ++ r) (zlen p) (zlen p + zlen s1) (fun b => nleb (blo b dim) Rm = true).
  Proof.
    intros (e & He & Hl) Hr. destruct (aget_app_in p s1 r e He) as (i & Hi & E).
    rewrite Forall_forall in Hr. destruct (aget_ok_pos bbc e (Hr e He)) as (b & Eb & _).
    exists i, e, b. repeat split; auto; try lia. unfold elo in Hl. now rewrite Eb in Hl.
  Qed.
  Lemma range_ex_hi_side d (bbi : list Z) a b Lm :
    range_ex bbc bbi a b (fun bx => nleb Lm (bhi bx (b2z d)) = true) ->
    range_ex bbc bbi a b (fun bx => nleb Lm (side_hi d bx) = true).
  Proof. intros (i & e & bx & H). exists i, e, bx. now rewrite side_hi_b. Qed.
  Lemma range_ex_lo_side d (bbi : list Z) a b Rm :
    range_ex bbc bbi a b (fun bx => nleb (blo bx (b2z d)) Rm = true) ->
    range_ex bbc bbi a b (fun bx => nleb (side_lo d bx) Rm = true).
  Proof. intros (i & e & bx & H). exists i, e, bx. now rewrite side_lo_b. Qed.

  (** One round of the loop *)
  Lemma visit_ok s idx d lo hi :
    Inv s -> Fresh s idx d lo hi ->
    st_node_index s + 2 * (hi - lo) - 2 <= zlen (st_nodes s) ->
    (exists er, visit (idx, d) s = Err er /\ Fails er)
    \/ (exists s', visit (idx, d) s = Ok (Next s' []) /\ Post s idx lo hi s')
    \/ (exists s' d', visit (idx, d) s = Ok (Next s' [(idx, d')]) /\ 0 <= d /\ d' < 0
          /\ Inv s' /\ Frame s idx lo hi s' /\ st_node_index s' = st_node_index s
          /\ Fresh s' idx d' lo hi)
    \/ (exists s' mid d1 d2 nd, let k := st_node_index s in
          visit (idx, d) s = Ok (Next s' [(k + 1, d2); (k, d1)])
          /\ lo < mid < hi /\ 0 <= d1 /\ 0 <= d2
          /\ Inv s' /\ Frame s idx lo hi s' /\ st_node_index s' = k + 2
          /\ aget (st_nodes s') idx = Ok nd /\ nchild nd = k /\ nptr nd = lo /\ nsize nd = hi - lo
          /\ range_all bbc (st_bbi s') lo mid (fun b => nleb (side_hi (ndim nd) b) (nLmax nd) = true)
          /\ range_all bbc (st_bbi s') mid hi (fun b => nleb (nRmin nd) (side_lo (ndim nd) b) = true)
          /\ range_ex bbc (st_bbi s') lo hi (fun b => nleb (nLmax nd) (side_hi (ndim nd) b) = true)
          /\ range_ex bbc (st_bbi s') lo hi (fun b => nleb (side_lo (ndim nd) b) (nRmin nd) = true)
          /\ Fresh s' k d1 lo mid /\ Fresh s' (k + 1) d2 mid hi).
  Proof.
    destruct s as [nodes k bbi]. intros (Hk & Hnd & Hrng) (Hidx & Hlo & Hhi & Hd & nd & End & Hch & Hptr & Hsz & Hdim) Hbud.
    sb.
    unfold build_visit. fold (dimof d). rewrite End. cbn [bind].
    set (dim := dimof d) in *.
    assert (Hdim01 : dim = 0 \/ dim = 1) by (rewrite <- Hdim; destruct (ndim nd); simpl; auto).
    destruct (nsize nd <=? cpl) eqn:Ecpl.
    { (* leaf *)
      right; left. exists (BState nodes k bbi). split; auto.
      split; [split; [|split]; auto|]. split.
      { split; [|split; [|split]]; sb; auto; try lia. apply PermRange_refl; lia. }
      sb. split; [lia|]. exists [idx]. rewrite zrange_nil. split; auto.
      econstructor; eauto; lia. }
    apply Z.leb_gt in Ecpl.
    destruct (split_at bbi lo hi) as (p & sl & q & Ebbi & Hp & Hpe); [lia|lia|].
    subst bbi. assert (Hsl : zlen sl = hi - lo) by lia.
    assert (Hrs : Forall in_range sl).
    { apply Forall_app in Hrng as (_ & Hr). apply Forall_app in Hr as (Hr & _). auto. }
    assert (Hnds : NoDup sl) by (eapply NoDup_app_mid; eauto).
    destruct (make_sorted_buckets_ok bbc g nb dim p sl q nd Hdim01 Hnb Hrs)
      as [(er & E & Her)|(bl & sl' & bs & E & Ebl & Hperm & Hseg & Hlim)]; try lia;
      rewrite E; cbn [bind].
    { left. exists er. split; auto. exists dim, sl. repeat split; auto; [lia|]. tauto. }
    assert (Hsl' : zlen sl' = hi - lo).
    { unfold zlen in *. rewrite <- (Permutation_length Hperm). auto. }
    assert (HPR : PermRange (p ++ sl ++ q) (p ++ sl' ++ q) lo hi).
    { exists p, sl, sl', q. auto. }
    assert (Hrng' : Forall in_range (p ++ sl' ++ q)).
    { eapply Permutation_Forall; [eapply PermRange_Permutation; eauto|auto]. }
    assert (Hnd' : NoDup (p ++ sl' ++ q)).
    { eapply Permutation_NoDup; [eapply PermRange_Permutation; eauto|auto]. }
    assert (Hrs' : Forall in_range sl') by (eapply Permutation_Forall; eauto).
    assert (Hlen' : zlen (p ++ sl' ++ q) = zlen (p ++ sl ++ q)).
    { unfold zlen. now rewrite (PermRange_length _ _ _ _ HPR). }
    destruct ((cpl =? 1) && (nsize nd =? 2)) eqn:E2.
    { (* two elements, one per leaf *)
      apply andb_true_iff in E2 as (_ & E2). apply Z.eqb_eq in E2.
      rewrite (update_node_ok _ _ _ nd) by (auto; lia). cbn [bind].
      set (nd1 := set_bounds nd (GMax bbc dim sl) (GMin bbc dim sl)).
      set (lc := create_node (nptr nd) 1 (dim =? 0)).
      set (rc := create_node (nptr nd + 1) 1 (dim =? 0)).
      destruct (add_children_ok (list_set nodes (Z.to_nat idx) nd1) idx k lc rc nd1)
        as (nodes' & Eadd & Hlen & Hi & Hk1 & Hk2 & Hoth).
      - lia.
      - rewrite zlen_set. lia.
      - apply aget_set_eq. lia.
      - rewrite Eadd. cbn [bind]. rewrite zlen_set in Hlen.
        right; left. eexists. split; [reflexivity|].
        assert (Hmid : exists e1 e2, sl' = [e1] ++ [e2]).
        { destruct sl' as [|e1 [|e2 [|e3 sl3]]]; try (rewrite ?zlen_cons, ?zlen_nil in Hsl'; lia).
          - exists e1, e2; reflexivity.
          - rewrite !zlen_cons in Hsl'. pose proof (zlen_nonneg sl3). lia. }
        destruct Hmid as (e1 & e2 & Emid).
        assert (Hgmax : Forall (fun e => nleb (ehi bbc dim e) (GMax bbc dim sl) = true) sl').
        { eapply Permutation_Forall; [exact Hperm|]. apply gmax_spec; auto. apply fin_fmin. }
        assert (Hgmin : Forall (fun e => nleb (GMin bbc dim sl) (elo bbc dim e) = true) sl').
        { eapply Permutation_Forall; [exact Hperm|]. apply gmin_spec; auto. apply fin_fmax. }
        assert (Hhi' : hi = lo + 1 + 1) by lia.
        split; [split; [|split]; sb; auto; lia|]. split.
        { split; [|split; [|split]]; sb; auto; try lia.
          intros j Hj Hn. rewrite Hoth by auto. apply aget_set_neq; lia. }
        sb. split; [lia|]. exists (idx :: [k] ++ [k + 1]). split.
        + eapply (TSplit _ _ _ idx lo (lo + 1) hi (set_child nd1 k) k); sb; auto; try lia.
          * rewrite Emid. rewrite <- app_assoc.
            intros i e bx Hir. rewrite side_hi_b. replace (b2z _) with dim by (symmetry; exact Hdim). revert i e bx Hir. rewrite <- Hp.
            apply (range_all_hi dim p [e1] ([e2] ++ q)).
            rewrite Emid in Hgmax. apply Forall_app in Hgmax. tauto.
          * rewrite Emid.
            replace (p ++ ([e1] ++ [e2]) ++ q) with ((p ++ [e1]) ++ [e2] ++ q)
              by (rewrite <- !app_assoc; reflexivity).
            intros i e bx Hir. rewrite side_lo_b. replace (b2z _) with dim by (symmetry; exact Hdim). revert i e bx Hir.
            replace (lo + 1) with (zlen (p ++ [e1])) by (rewrite zlen_app, zlen_cons, zlen_nil; lia).
            replace hi with (zlen (p ++ [e1]) + zlen [e2])
              by (rewrite zlen_app, !zlen_cons, !zlen_nil; lia).
            apply range_all_lo.
            rewrite Emid in Hgmin. apply Forall_app in Hgmin. tauto.
          * apply range_ex_hi_side. replace (b2z _) with dim by (symmetry; exact Hdim).
            rewrite <- Hp. replace hi with (zlen p + zlen sl') by lia. apply range_ex_hi; auto.
            destruct (GMax_att bbc Hfin dim sl) as (e & He1 & He2); [intros E0; subst sl; rewrite zlen_nil in *; lia|].
            exists e. split; auto. eapply Permutation_in; eauto.
          * apply range_ex_lo_side. replace (b2z _) with dim by (symmetry; exact Hdim).
            rewrite <- Hp. replace hi with (zlen p + zlen sl') by lia. apply range_ex_lo; auto.
            destruct (GMin_att bbc Hfin dim sl) as (e & He1 & He2); [intros E0; subst sl; rewrite zlen_nil in *; lia|].
            exists e. split; auto. eapply Permutation_in; eauto.
          * apply (TLeaf _ _ _ k lo (lo + 1) lc); auto; unfold lc; sb; lia.
          * apply (TLeaf _ _ _ (k + 1) (lo + 1) hi rc); auto; unfold rc; sb; lia.
        + rewrite (zrange_cons k) by lia. rewrite (zrange_cons (k + 1)) by lia.
          replace (k + 1 + 1) with (k + 2) by lia. rewrite zrange_nil. apply Permutation_refl. }
    assert (Hne : sl' <> []) by (intros ->; rewrite zlen_nil in Hsl'; lia).
    destruct (merge_buckets_ok bbc dim (zlen p) bs sl' Hseg Hne) as (bs' & Em & Hseg' & Hpos).
    rewrite Em. cbn [bind].
    destruct (existsb (fun b => bsize b =? nsize nd) bs') eqn:Eone.
    { destruct (0 <=? d) eqn:Ed.
      - (* try the other dimension *)
        apply Z.leb_le in Ed.
        rewrite (update_node_ok _ _ _ nd) by (auto; lia). cbn [bind].
        right; right; left. eexists _, _. split; [reflexivity|]. split; auto.
        split; [destruct (dim =? 0); simpl; lia|].
        split; [split; [|split]; sb; rewrite ?zlen_set; auto; lia|]. split.
        { split; [|split; [|split]]; sb; rewrite ?zlen_set; auto; try lia.
          intros j Hj Hn. apply aget_set_neq; lia. }
        split; [reflexivity|].
        unfold Fresh. sb. rewrite Hlen'.
        assert (dim = d) by (unfold dim, dimof; destruct (d <? 0) eqn:E0; lia).
        split; [lia|]. split; [lia|]. split; [lia|].
        split; [destruct (dim =? 0); simpl; lia|].
        exists (set_dim nd (negb (ndim nd))). split; [apply aget_set_eq; lia|].
        sb. repeat split; auto. unfold dimof.
        destruct Hdim01 as [H0|H0]; rewrite H0 in *; destruct (ndim nd); simpl in *; try lia; reflexivity.
      - (* give up: leaf *)
        apply Z.leb_gt in Ed.
        rewrite (update_node_ok _ _ _ nd) by (auto; lia). cbn [bind].
        right; left. eexists. split; [reflexivity|].
        split; [split; [|split]; sb; rewrite ?zlen_set; auto; lia|]. split.
        { split; [|split; [|split]]; sb; rewrite ?zlen_set; auto; try lia.
          intros j Hj Hn. apply aget_set_neq; lia. }
        sb. split; [lia|]. exists [idx]. rewrite zrange_nil. split; auto.
        eapply TLeaf; [lia|apply aget_set_eq; lia|simpl; auto..]. lia. }
    destruct (split_plane_ok bbc Hfin dim (zlen p) bs' sl' nd (GMax bbc dim sl) (GMin bbc dim sl) bl Hseg' Hpos)
      as [(er & Es & Her)|(plane & Lm & Rm & pb & s1 & s2 & Es & Epb & Hidxb & Esl & Hn1 & Hn2 & HL & HR & HLa & HRa)];
      rewrite Es; cbn [bind].
    { left. exists er. split; auto. exists dim, sl. repeat split; auto; [lia|].
      right; right. exists bl, (zlen p), bs', sl', nd. repeat split; auto; [|lia].
      (* more than one bucket *)
      destruct (Z.le_gt_cases 2 (zlen bs')) as [|Hlt]; auto. exfalso.
      destruct bs' as [|b [|b2 bs2]].
      - inversion Hseg'; subst. congruence.
      - inversion Hseg' as [|? ? ? seg s0 Hs0 Hi0 HR0 HL0 Hr0]; subst.
        inversion Hr0; subst. rewrite app_nil_r in Hsl'. simpl in Eone.
        apply orb_false_iff in Eone as (Eone & _). apply Z.eqb_neq in Eone. lia.
      - rewrite !zlen_cons in Hlt. pose proof (zlen_nonneg bs2). lia. }
    rewrite Epb. cbn [bind].
    rewrite (update_node_ok _ _ _ nd) by (auto; lia). cbn [bind].
    set (mid := bindex pb) in *.
    assert (Hl1 : 0 < zlen s1) by (destruct s1; [congruence|rewrite zlen_cons; pose proof (zlen_nonneg s1); lia]).
    assert (Hl2 : 0 < zlen s2) by (destruct s2; [congruence|rewrite zlen_cons; pose proof (zlen_nonneg s2); lia]).
    assert (Hl12 : zlen s1 + zlen s2 = hi - lo) by (rewrite <- Hsl', Esl, zlen_app; lia).
    assert (Hmid : lo < mid < hi) by lia.
    replace (nptr nd + nsize nd - mid) with (hi - mid) by lia.
    replace (nsize nd - (hi - mid)) with (mid - lo) by lia.
    set (nd1 := set_bounds nd Lm Rm).
    set (lc := create_node (nptr nd) (mid - lo) (dim =? 0)).
    set (rc := create_node mid (hi - mid) (dim =? 0)).
    destruct (add_children_ok (list_set nodes (Z.to_nat idx) nd1) idx k lc rc nd1)
      as (nodes' & Eadd & Hlen & Hi & Hk1 & Hk2 & Hoth).
    { lia. }
    { rewrite zlen_set. lia. }
    { apply aget_set_eq. lia. }
    rewrite Eadd. cbn [bind]. rewrite zlen_set in Hlen.
    right; right; right.
    exists (BState nodes' (k + 2) (p ++ sl' ++ q)), mid, (b2z (ndim lc)), (b2z (ndim rc)),
           (set_child nd1 k).
    cbv zeta. sb. split; [reflexivity|]. split; auto.
    split; [destruct (dim =? 0); simpl; lia|]. split; [destruct (dim =? 0); simpl; lia|].
    split; [split; [|split]; sb; auto; lia|]. split.
    { split; [|split; [|split]]; sb; auto; try lia.
      intros j Hj Hn. rewrite Hoth by auto. apply aget_set_neq; lia. }
    do 5 (split; [auto|]).
    assert (Emid1 : mid = zlen (p ++ s1)) by (rewrite zlen_app; lia).
    split.
    { rewrite Esl, <- app_assoc. intros i e bx Hir. rewrite side_hi_b. replace (b2z _) with dim by (symmetry; exact Hdim). revert i e bx Hir.
      rewrite Emid1, zlen_app, <- Hp. now apply range_all_hi. }
    split.
    { rewrite Esl. replace (p ++ (s1 ++ s2) ++ q) with ((p ++ s1) ++ s2 ++ q)
        by (rewrite <- !app_assoc; reflexivity).
      intros i e bx Hir. rewrite side_lo_b. replace (b2z _) with dim by (symmetry; exact Hdim). revert i e bx Hir.
      replace hi with (zlen (p ++ s1) + zlen s2) by (rewrite zlen_app; lia).
      rewrite Emid1. now apply range_all_lo. }
    split.
    { apply range_ex_hi_side. replace (b2z _) with dim by (symmetry; exact Hdim).
      rewrite <- Hp. replace hi with (zlen p + zlen sl') by lia. apply range_ex_hi; auto.
      destruct HLa as (e & He1 & He2). exists e. split; auto. rewrite Esl. apply in_or_app; auto. }
    split.
    { apply range_ex_lo_side. replace (b2z _) with dim by (symmetry; exact Hdim).
      rewrite <- Hp. replace hi with (zlen p + zlen sl') by lia. apply range_ex_lo; auto.
      destruct HRa as (e & He1 & He2). exists e. split; auto. rewrite Esl. apply in_or_app; auto. }
    assert (Hd0 : forall b : bool, -2 <= b2z b <= 1) by (intros []; simpl; lia).
    assert (Hd1 : forall b : bool, b2z b = dimof (b2z b)) by (intros []; reflexivity).
    unfold Fresh. sb. rewrite Hlen'. split.
    - split; [lia|]. split; [lia|]. split; [lia|]. split; [apply Hd0|].
      exists lc. sb. repeat split; auto.
    - split; [lia|]. split; [lia|]. split; [lia|]. split; [apply Hd0|].
      exists rc. sb. repeat split; auto.
  Qed.

  (* ---------------------------------------------------------------- *)

  Lemma TreeAt_lt nodes bbi idx lo hi S : TreeAt nodes bbi idx lo hi S -> lo < hi.
  Proof. induction 1; lia. Qed.

  Lemma TreeAt_frame nodes nodes' bbi bbi' idx lo hi S :
    TreeAt nodes bbi idx lo hi S ->
    (forall i, In i S -> aget nodes' i = aget nodes i) ->
    (forall i, lo <= i < hi -> aget bbi' i = aget bbi i) ->
    TreeAt nodes' bbi' idx lo hi S.
  Proof.
    induction 1 as [idx lo hi nd H0 E Hc Hp Hs Hlt|
                    idx lo mid hi nd c S1 S2 H0 E Hc Hlt Hp Hs HL HR HLa HRa H1 IH1 H2 IH2]; intros Hn Hb.
    - econstructor; eauto. rewrite Hn; simpl; auto.
    - assert (Hlm : lo < mid) by (eapply TreeAt_lt; eauto).
      assert (Hmh : mid < hi) by (eapply TreeAt_lt; eauto).
      eapply TSplit with (nd := nd) (mid := mid); eauto.
      + rewrite Hn; simpl; auto.
      + intros i e bx Hi He. rewrite Hb in He by lia. eapply HL; eauto.
      + intros i e bx Hi He. rewrite Hb in He by lia. eapply HR; eauto.
      + destruct HLa as (i & e & bx & Hi & He & Hr). exists i, e, bx. rewrite Hb by lia. auto.
      + destruct HRa as (i & e & bx & Hi & He & Hr). exists i, e, bx. rewrite Hb by lia. auto.
      + apply IH1; [intros i Hi; apply Hn; simpl; right; apply in_or_app; auto|intros; apply Hb; lia].
      + apply IH2; [intros i Hi; apply Hn; simpl; right; apply in_or_app; auto|intros; apply Hb; lia].
  Qed.

  Lemma PermRange_zlen {A} (l l' : list A) a b : PermRange l l' a b -> zlen l' = zlen l.
  Proof. intros H. unfold zlen. now rewrite (PermRange_length _ _ _ _ H). Qed.

  Lemma Frame_trans s idx lo hi s1 s2 :
    Frame s idx lo hi s1 -> Frame s1 idx lo hi s2 -> Frame s idx lo hi s2.
  Proof.
    intros (A1 & A2 & A3 & A4) (B1 & B2 & B3 & B4).
    split; [lia|]. split; [lia|]. split; [eapply PermRange_trans; eauto|].
    intros i Hi Hn. rewrite B4, A4 by lia. reflexivity.
  Qed.

  Lemma range_all_perm bbi bbi' a b P :
    PermRange bbi bbi' a b -> range_all bbc bbi a b P -> range_all bbc bbi' a b P.
  Proof.
    intros HP H i e bx Hi He Hb. destruct (PermRange_index _ _ _ _ i HP Hi) as (j & e' & Hj & E1 & E2).
    rewrite E1 in He. inversion He; subst. eapply H; eauto.
  Qed.

  Lemma PermRange_sym {A} (l l' : list A) a b : PermRange l l' a b -> PermRange l' l a b.
  Proof.
    intros (p & s & s' & q & -> & -> & H1 & H2 & H3). exists p, s', s, q.
    repeat split; auto; [|now symmetry]. unfold zlen in *. rewrite <- (Permutation_length H3). auto.
  Qed.

  Lemma range_ex_perm bbi bbi' a b P :
    PermRange bbi bbi' a b -> range_ex bbc bbi a b P -> range_ex bbc bbi' a b P.
  Proof.
    intros HP (i & e & bx & Hi & He & Hb). apply PermRange_sym in HP.
    destruct (PermRange_index _ _ _ _ i HP Hi) as (j & e' & Hj & E1 & E2).
    rewrite E1 in He. inversion He; subst. exists j, e, bx. auto.
  Qed.

  Lemma range_all_same bbi bbi' a b P :
    (forall i, a <= i < b -> aget bbi' i = aget bbi i) ->
    range_all bbc bbi a b P -> range_all bbc bbi' a b P.
  Proof. intros HE H i e bx Hi He Hb. rewrite HE in He by auto. eapply H; eauto. Qed.

  Definition flagged (d : Z) : Z := if 0 <=? d then 0 else 1.

  Lemma bigstep : forall (M : nat) s idx d lo hi,
    2 * (hi - lo) - flagged d < Z.of_nat M ->
    Inv s -> Fresh s idx d lo hi ->
    st_node_index s + 2 * (hi - lo) - 2 <= zlen (st_nodes s) ->
    (exists er c, Z.of_nat c <= 4 * (hi - lo) - 2 - flagged d /\ Fails er /\
       forall F rest, list_loop visit (c + F) ((idx, d) :: rest) s = Err er)
    \/ (exists s' c, Z.of_nat c <= 4 * (hi - lo) - 2 - flagged d /\ Post s idx lo hi s' /\
         forall F rest, list_loop visit (c + F) ((idx, d) :: rest) s = list_loop visit F rest s').
  Proof.
    induction M as [|M IH]; intros s idx d lo hi HM Hinv Hfr Hbud.
    { destruct Hfr as (_ & Hlo & _). unfold flagged in HM. destruct (0 <=? d); lia. }
    assert (Hfl : 0 <= flagged d <= 1) by (unfold flagged; destruct (0 <=? d); lia).
    assert (Hlohi : lo < hi) by (destruct Hfr as (_ & H & _); lia).
    destruct (visit_ok s idx d lo hi Hinv Hfr Hbud)
      as [(er & E & Hf)
         |[(s' & E & HP)
         |[(s1 & d' & E & Hd & Hd' & Hinv1 & HF1 & Hk1 & Hfr1)
          |(s1 & mid & d1 & d2 & nd & E & Hmid & Hd1 & Hd2 & Hinv1 & HF1 & Hk1 & End & Hch & Hptr & Hsz
            & HL & HR & HLa & HRa & Hfr1 & Hfr2)]]].
    - left. exists er, 1%nat. split; [lia|]. split; auto. intros F rest. cbn [Nat.add list_loop]. now rewrite E.
    - right. exists s', 1%nat. split; [lia|]. split; auto. intros F rest. cbn [Nat.add list_loop]. now rewrite E.
    - (* switch dimension *)
      assert (Ef : flagged d' = 1) by (unfold flagged; destruct (0 <=? d') eqn:E0; lia).
      assert (Ef0 : flagged d = 0) by (unfold flagged; destruct (0 <=? d) eqn:E0; lia).
      destruct HF1 as (F1 & F2 & F3 & F4).
      destruct (IH s1 idx d' lo hi) as [(er & c & Hc & Hf & Hl)|(s' & c & Hc & HP & Hl)]; auto; try lia.
      + left. exists er, (S c). split; [lia|]. split; auto.
        intros F rest. cbn [Nat.add list_loop]. rewrite E. cbn [bind rev app]. apply Hl.
      + right. exists s', (S c). split; [lia|]. split.
        * destruct HP as (P1 & P2 & P3 & S & P4 & P5). rewrite Hk1 in *.
          split; auto. split; [eapply Frame_trans; [|exact P2]; split; [|split; [|split]]; auto; lia|].
          split; auto. exists S. auto.
        * intros F rest. cbn [Nat.add list_loop]. rewrite E. cbn [bind rev app]. apply Hl.
    - (* split *)
      cbv zeta in E. set (k := st_node_index s) in *.
      destruct HF1 as (F1 & F2 & F3 & F4). fold k in F2, F4.
      assert (Hidx : 0 <= idx < k) by (destruct Hfr as (H & _); exact H).
      assert (Ef1 : flagged d1 = 0) by (unfold flagged; destruct (0 <=? d1) eqn:E0; lia).
      assert (Ef2 : flagged d2 = 0) by (unfold flagged; destruct (0 <=? d2) eqn:E0; lia).
      destruct (IH s1 k d1 lo mid) as [(er & c & Hc & Hf & Hl)|(s2 & c1 & Hc1 & HP1 & Hl1)];
        auto; try lia.
      { left. exists er, (S c). split; [lia|]. split; auto.
        intros F rest. cbn [Nat.add list_loop]. rewrite E. cbn [bind rev app]. apply Hl. }
      destruct HP1 as (Hinv2 & (G1 & G2 & G3 & G4) & Hk2 & S1 & HT1 & HS1).
      assert (Hfr2' : Fresh s2 (k + 1) d2 mid hi).
      { destruct Hfr2 as (A1 & A2 & A3 & A4 & nd2 & A5 & A6). unfold Fresh.
        rewrite (PermRange_zlen _ _ _ _ G3).
        split; [lia|]. split; [auto|]. split; [auto|]. split; [auto|].
        exists nd2. split; [|auto]. rewrite G4 by lia. auto. }
      destruct (IH s2 (k + 1) d2 mid hi) as [(er & c & Hc & Hf & Hl)|(s3 & c2 & Hc2 & HP2 & Hl2)];
        auto; try lia.
      { left. exists er, (S (c1 + c)). split; [lia|]. split; auto.
        intros F rest. cbn [Nat.add list_loop]. rewrite E. cbn [bind rev app].
        replace (c1 + c + F)%nat with (c1 + (c + F))%nat by lia. rewrite Hl1. apply Hl. }
      destruct HP2 as (Hinv3 & (J1 & J2 & J3 & J4) & Hk3 & S2 & HT2 & HS2).
      right. exists s3, (S (c1 + c2)). split; [lia|]. split.
      2:{ intros F rest. cbn [Nat.add list_loop]. rewrite E. cbn [bind rev app].
          replace (c1 + c2 + F)%nat with (c1 + (c2 + F))%nat by lia. rewrite Hl1. apply Hl2. }
      assert (Hz1 : zlen (st_bbi s1) = zlen (st_bbi s)) by (eapply PermRange_zlen; eauto).
      assert (Hz2 : zlen (st_bbi s2) = zlen (st_bbi s1)) by (eapply PermRange_zlen; eauto).
      assert (Hb : 0 <= lo /\ hi <= zlen (st_bbi s)) by (destruct Hfr as (_ & B1 & B2 & _); lia).
      split; auto. split; [|split; [lia|]].
      { split; [lia|]. split; [lia|]. split.
        - eapply PermRange_trans; [exact F3|].
          eapply PermRange_trans; [eapply PermRange_widen; [exact G3|lia|lia]|].
          eapply PermRange_widen; [exact J3|lia|lia].
        - intros i Hi Hn. fold k in Hi. rewrite J4, G4, F4 by lia. reflexivity. }
      exists (idx :: S1 ++ S2). split.
      + assert (Hin1 : forall i, In i S1 -> 0 <= i < st_node_index s2 /\ i <> k + 1).
        { intros i Hi. eapply Permutation_in in Hi; [|exact HS1].
          destruct Hi as [<-|Hi]; [lia|]. apply zrange_in in Hi. lia. }
        eapply (TSplit _ _ _ idx lo mid hi nd k).
        * lia.
        * rewrite J4, G4 by lia. exact End.
        * auto.
        * lia.
        * auto.
        * auto.
        * apply range_all_same with (bbi := st_bbi s2).
          { intros i Hi. eapply PermRange_out; [exact J3|lia|lia]. }
          eapply range_all_perm; eauto.
        * eapply range_all_perm; [exact J3|].
          apply range_all_same with (bbi := st_bbi s1); auto.
          intros i Hi. eapply PermRange_out; [exact G3|lia|lia].
        * eapply range_ex_perm; [|exact HLa].
          eapply PermRange_trans; [eapply PermRange_widen; [exact G3|lia|lia]|].
          eapply PermRange_widen; [exact J3|lia|lia].
        * eapply range_ex_perm; [|exact HRa].
          eapply PermRange_trans; [eapply PermRange_widen; [exact G3|lia|lia]|].
          eapply PermRange_widen; [exact J3|lia|lia].
        * eapply TreeAt_frame; [exact HT1| |].
          { intros i Hi. destruct (Hin1 i Hi). apply J4; lia. }
          intros i Hi. eapply PermRange_out; [exact J3|lia|lia].
        * exact HT2.
      + constructor. rewrite HS1, HS2. rewrite Hk1 in *.
        rewrite (zrange_cons k) by lia. rewrite (zrange_cons (k + 1)) by lia.
        replace (k + 1 + 1) with (k + 2) by lia.
        rewrite (zrange_app (k + 2) (st_node_index s2) (st_node_index s3)) by lia.
        simpl. constructor. symmetry. apply Permutation_middle.
  Qed.

  (* ---------------------------------------------------------------- *)
  (** ** pessimistic_n_nodes *)

  Lemma pess_loop_ge fuel : forall acc m,
    1 <= m -> m <= Z.of_nat fuel + 1 -> acc + 2 * m - 2 <= pessimistic_loop fuel acc m.
  Proof.
    induction fuel as [|fuel IH]; intros acc m H1 H2; cbn [pessimistic_loop].
    - lia.
    - destruct (Z.gtb_spec m 1) as [H|H]; [|lia].
      assert (Hc : 1 <= (m + 1) / 2 /\ 2 * ((m + 1) / 2) >= m /\ (m + 1) / 2 <= m - 1).
      { pose proof (Z.div_mod (m + 1) 2 ltac:(lia)). pose proof (Z.mod_pos_bound (m + 1) 2 ltac:(lia)). lia. }
      etransitivity; [|apply IH; lia]. lia.
  Qed.

  Lemma pessimistic_ge n : 1 <= n -> 2 * n - 1 <= pessimistic_n_nodes n.
  Proof.
    intros H. unfold pessimistic_n_nodes.
    assert (Hc : 1 <= (n + 1) / 2 /\ 2 * ((n + 1) / 2) >= n /\ (n + 1) / 2 <= n).
    { pose proof (Z.div_mod (n + 1) 2 ltac:(lia)). pose proof (Z.mod_pos_bound (n + 1) 2 ltac:(lia)). lia. }
    pose proof (pess_loop_ge (Z.to_nat n) n ((n + 1) / 2) ltac:(lia) ltac:(lia)). lia.
  Qed.

  (** Main theorem of construction *)
  Theorem initialize_ok n fuel :
    (1 <= n)%nat -> Z.of_nat n <= zlen bbc -> (4 * n <= fuel)%nat ->
    (exists er, initialize g fuel n bbc nb cpl = Err er /\ Fails er)
    \/ exists nodes bbi S,
        initialize g fuel n bbc nb cpl = Ok (nodes, bbi)
        /\ Permutation bbi (iota n)
        /\ TreeAt nodes bbi 0 0 (Z.of_nat n) S
        /\ Permutation S (iota (length nodes))
        /\ zlen nodes <= 2 * Z.of_nat n - 1
        /\ zlen nodes <= pessimistic_n_nodes (Z.of_nat n).
  Proof.
    intros Hn Hnb' Hfuel. unfold initialize.
    set (bbi0 := iota n).
    assert (Hl0 : zlen bbi0 = Z.of_nat n) by (unfold zlen, bbi0; now rewrite iota_length).
    rewrite Hl0.
    pose proof (pessimistic_ge (Z.of_nat n) ltac:(lia)) as Hpe.
    set (N := pessimistic_n_nodes (Z.of_nat n)) in *.
    set (arr := np_empty (gnode g) (Z.to_nat N)).
    assert (Harr : zlen arr = N) by (unfold zlen, arr; rewrite np_empty_length; lia).
    unfold push_node. rewrite aset_pos by lia. cbn [bind].
    change (Z.to_nat 0) with O.
    set (root := create_node 0 (Z.of_nat n) false).
    set (arr0 := list_set arr 0 root).
    unfold build.
    destruct (alloc_rep (gZZ g) (0, 0)) as (st & Est & Hst). rewrite Est. cbn [bind].
    rewrite (stack_loop_list _ _ fuel st 1 [(0, 0)] _ Hst).
    set (s0 := BState arr0 (0 + 1) bbi0).
    assert (Harr0 : zlen arr0 = N) by (unfold arr0; now rewrite zlen_set).
    assert (Hinv : Inv s0).
    { split; [simpl; lia|]. split; [apply iota_nodup|].
      apply Forall_forall. intros i Hi. apply iota_in in Hi. unfold PPartition.in_range. lia. }
    assert (Hfr : Fresh s0 0 0 0 (Z.of_nat n)).
    { unfold Fresh. sb. split; [simpl; lia|]. split; [lia|]. split; [simpl; lia|]. split; [lia|].
      exists root. split; [apply (aget_set_eq arr 0); lia|]. unfold root. sb. repeat split; auto. lia. }
    destruct (bigstep (S (Z.to_nat (2 * Z.of_nat n))) s0 0 0 0 (Z.of_nat n))
      as [(er & c & Hc & Hf & Hl)|(s' & c & Hc & HP & Hl)]; auto.
    { change (flagged 0) with 0. lia. }
    { change (st_node_index s0) with 1. change (st_nodes s0) with arr0. lia. }
    - left. exists er. change (flagged 0) with 0 in Hc.
      replace fuel with (c + (fuel - c))%nat by lia. rewrite Hl. auto.
    - right. change (flagged 0) with 0 in Hc.
      replace fuel with (c + (fuel - c))%nat by lia. rewrite Hl.
      destruct HP as (((K1 & K2) & _) & (P1 & P2 & P3 & P4) & P5 & S & HT & HS).
      change (st_node_index s0) with 1 in *. change (st_nodes s0) with arr0 in *.
      change (st_bbi s0) with bbi0 in *.
      exists (firstn (Z.to_nat (st_node_index s')) (st_nodes s')), (st_bbi s'), S.
      split; [destruct (fuel - c)%nat; reflexivity|].
      assert (Hlen : zlen (firstn (Z.to_nat (st_node_index s')) (st_nodes s')) = st_node_index s').
      { unfold zlen in *. rewrite firstn_length. lia. }
      assert (HS' : Permutation S (zrange 0 (st_node_index s'))).
      { rewrite HS. rewrite (zrange_cons 0) by lia. reflexivity. }
      split; [symmetry; eapply PermRange_Permutation; eauto|].
      split; [|split; [|lia]].
      + eapply TreeAt_frame; [exact HT| |auto].
        intros i Hi. eapply Permutation_in in Hi; [|exact HS']. apply zrange_in in Hi.
        destruct (aget_ok_pos (st_nodes s') i) as (a & E & Ha); [lia|].
        rewrite E. apply aget_pos; [lia|].
        rewrite <- Ha. rewrite <- (firstn_skipn (Z.to_nat (st_node_index s')) (st_nodes s')) at 2.
        rewrite nth_error_app1; auto. unfold zlen in *. lia.
      + rewrite HS'. rewrite <- zrange_iota. unfold zlen in Hlen. rewrite Hlen. reflexivity.
  Qed.
End Build2.
